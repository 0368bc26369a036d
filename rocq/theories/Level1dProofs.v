(** Proofs about Level1dModel.v. *)
From Verif Require Import Base Level1dModel PartitionProofs DecompModel DecompProofs.

Lemma ctzPos_spec : forall p, 0 <= ctzPos p /\ exists m, 0 <= m /\ Zpos p = 2 ^ ctzPos p * (2 * m + 1).
Proof.
  induction p as [p IH|p IH|]; simpl ctzPos.
  - split; [lia|]. exists (Zpos p). split; [lia|]. rewrite Pos2Z.inj_xI. change (2 ^ 0) with 1. ring.
  - destruct IH as [H0 [m [Hm E]]]. split; [lia|]. exists m. split; auto.
    rewrite Pos2Z.inj_xO, E, Z.pow_add_r by lia. ring.
  - split; [lia|]. exists 0. split; [lia|]. reflexivity.
Qed.

Lemma ctz_spec : forall x, 0 < x -> 0 <= ctz x /\ exists m, 0 <= m /\ x = 2 ^ ctz x * (2 * m + 1).
Proof. intros [|p|p] H; try lia. apply ctzPos_spec. Qed.

Lemma pow2_split : forall a b, 0 <= a <= b -> 2 ^ b = 2 ^ a * 2 ^ (b - a).
Proof. intros. rewrite <- Z.pow_add_r by lia. f_equal. lia. Qed.

Lemma odd_factor_unique : forall a b m k, 0 <= a -> 0 <= b ->
  2 ^ a * (2 * m + 1) = 2 ^ b * (2 * k + 1) -> a = b.
Proof.
  assert (G : forall a b m k, 0 <= a < b -> 2 ^ a * (2 * m + 1) = 2 ^ b * (2 * k + 1) -> False).
  { intros a b m k H E. rewrite (pow2_split a b) in E by lia.
    pose proof (pow2_pos a ltac:(lia)). rewrite (pow2_split 1 (b - a)) in E by lia.
    change (2 ^ 1) with 2 in E.
    assert (2 * m + 1 = 2 * 2 ^ (b - a - 1) * (2 * k + 1)) by nia. lia. }
  intros a b m k Ha Hb E. destruct (Z.lt_trichotomy a b) as [L|[?|L]]; auto; exfalso.
  - eapply (G a b); eauto; lia.
  - eapply (G b a); [lia|symmetry; eauto].
Qed.

Lemma ctz_unique : forall x a m, 0 < x -> 0 <= a -> x = 2 ^ a * (2 * m + 1) -> ctz x = a.
Proof.
  intros x a m Hx Ha E. destruct (ctz_spec x Hx) as [H0 [k [_ K]]].
  apply (odd_factor_unique _ _ k m); auto. congruence.
Qed.

Lemma divides_pow2_ctz : forall x a, 0 < x -> 0 <= a -> ((2 ^ a | x) <-> a <= ctz x).
Proof.
  intros x a Hx Ha. destruct (ctz_spec x Hx) as [H0 [k [_ K]]]. split.
  - intros [q Hq]. destruct (Z_le_gt_dec a (ctz x)) as [|G]; auto. exfalso.
    pose proof (pow2_pos (ctz x) H0). rewrite (pow2_split (ctz x) a) in Hq by lia.
    rewrite (pow2_split 1 (a - ctz x)) in Hq by lia. change (2 ^ 1) with 2 in Hq.
    assert (2 * k + 1 = q * (2 * 2 ^ (a - ctz x - 1))) by nia. lia.
  - intros L. rewrite K. rewrite (pow2_split a (ctz x)) by lia.
    exists (2 ^ (ctz x - a) * (2 * k + 1)). ring.
Qed.

(** Level as a function of the position [i] (in mesh widths of the finest level). *)
Definition lev (L i : Z) : Z := if i =? 0 then 0 else L - ctz i.

Lemma getLevel_lev : forall b L idx, getLevel b L idx = lev L (gridPos b idx).
Proof. reflexivity. Qed.

Lemma ctz_le_L : forall L i, 0 <= L -> 0 < i <= 2 ^ L -> 0 <= ctz i <= L.
Proof.
  intros L i HL Hi. destruct (ctz_spec i ltac:(lia)) as [H0 [k [Hk K]]]. split; auto.
  destruct (Z_le_gt_dec (ctz i) L) as [|G]; auto. exfalso.
  pose proof (Z.pow_lt_mono_r 2 L (ctz i) ltac:(lia) ltac:(lia) ltac:(lia)). nia.
Qed.

Lemma lev_range : forall L i, 0 <= L -> 0 <= i <= 2 ^ L -> 0 <= lev L i <= L.
Proof.
  intros L i HL Hi. unfold lev. destruct (Z.eqb_spec i 0); [lia|].
  pose proof (ctz_le_L L i HL ltac:(lia)). lia.
Qed.

Lemma lev_divides : forall L i l, 0 <= L -> 0 <= i <= 2 ^ L -> 0 <= l <= L ->
  ((2 ^ (L - l) | i) <-> lev L i <= l).
Proof.
  intros L i l HL Hi Hl. unfold lev. destruct (Z.eqb_spec i 0) as [->|].
  - split; [lia|]. intros _. exists 0. ring.
  - rewrite divides_pow2_ctz by lia. lia.
Qed.

Lemma lev_odd : forall L i l, 1 <= l <= L -> 0 <= i <= 2 ^ L ->
  (lev L i = l <-> exists m, 0 <= m /\ i = 2 ^ (L - l) * (2 * m + 1)).
Proof.
  intros L i l Hl Hi. unfold lev. destruct (Z.eqb_spec i 0) as [->|].
  - split; [lia|]. intros [m [Hm E]]. pose proof (pow2_pos (L - l) ltac:(lia)). nia.
  - split.
    + intros E. destruct (ctz_spec i ltac:(lia)) as [H0 [k [Hk K]]]. exists k. split; auto.
      replace (L - l) with (ctz i) by lia. auto.
    + intros [m [Hm E]]. rewrite (ctz_unique i (L - l) m); lia.
Qed.

Lemma lev_zero : forall L i, 0 <= L -> 0 <= i <= 2 ^ L -> (lev L i = 0 <-> i = 0 \/ i = 2 ^ L).
Proof.
  intros L i HL Hi. pose proof (pow2_pos L HL). split.
  - intros E. assert (H0 : (2 ^ (L - 0) | i)) by (apply lev_divides; lia).
    rewrite Z.sub_0_r in H0. destruct H0 as [q Hq]. assert (0 <= q <= 1) by nia.
    assert (q = 0 \/ q = 1) as [->| ->] by lia; lia.
  - intros [-> | ->]; [reflexivity|]. unfold lev. destruct (Z.eqb_spec (2 ^ L) 0); [lia|].
    rewrite (ctz_unique (2 ^ L) L 0); lia.
Qed.

(** ** Membership in the index progression of a level *)

Lemma numDof_range : forall b L idx, 0 <= b <= 2 -> 0 <= idx < 2 ^ L + b - 1 ->
  0 <= gridPos b idx <= 2 ^ L.
Proof. intros b L idx Hb H. unfold gridPos. destruct (Z.eqb_spec b 0); lia. Qed.

Lemma in_progression : forall b L l idx, 0 <= b <= 2 -> 1 <= l <= L -> 0 <= idx < 2 ^ L + b - 1 ->
  (Z.max 1 (getLevel b L idx) = l <-> exists m, 0 <= m /\ idx = offsetForLevel b L l + m * strideForLevel b L l).
Proof.
  intros b L l idx Hb Hl Hi. rewrite getLevel_lev.
  pose proof (numDof_range b L idx Hb Hi) as R.
  pose proof (lev_range L _ ltac:(lia) R) as LR.
  pose proof (lev_zero L _ ltac:(lia) R) as LZ.
  pose proof (lev_odd L _ l Hl R) as LO.
  pose proof (pow2_pos (L - l) ltac:(lia)) as P.
  assert (P1 : 2 ^ (L - l + 1) = 2 * 2 ^ (L - l)) by (rewrite Z.pow_add_r by lia; change (2 ^ 1) with 2; ring).
  assert (PL : 2 ^ L = 2 ^ (L - l) * 2 ^ l) by (rewrite <- Z.pow_add_r by lia; f_equal; lia).
  unfold offsetForLevel, strideForLevel, gridPos in *.
  destruct (Z.gtb_spec b 0) as [Hb0|Hb0]; destruct (Z.eqb_spec b 0) as [Eb|Eb]; try lia;
  destruct (Z.eqb_spec l 1) as [El|El]; cbn [andb].
  - subst l. change (2 ^ 1) with 2 in *.
    split.
    + intros E. assert (lev L idx = 0 \/ lev L idx = 1) as [E0|E0] by lia.
      * apply LZ in E0 as [-> | ->]; [exists 0; lia|exists 2; lia].
      * apply LO in E0 as [m [Hm ->]]. exists (2 * m + 1). split; [lia|ring].
    + intros [m [Hm ->]]. assert (0 <= m <= 2) by nia.
      assert (m = 0 \/ m = 1 \/ m = 2) as [->|[->| ->]] by lia.
      * assert (lev L (0 + 0 * 2 ^ (L - 1)) = 0); [|lia]. apply LZ. lia.
      * assert (lev L (0 + 1 * 2 ^ (L - 1)) = 1); [|lia]. apply LO. exists 0. lia.
      * assert (lev L (0 + 2 * 2 ^ (L - 1)) = 0); [|lia]. apply LZ. lia.
  - rewrite P1. split.
    + intros E. assert (lev L idx = l) as E0 by lia. apply LO in E0 as [m [Hm ->]]. exists m. split; [lia|ring].
    + intros [m [Hm E]]. assert (lev L idx = l); [|lia]. apply LO. exists m. split; [lia|]. rewrite E. ring.
  - subst l. rewrite P1. change (2 ^ 1) with 2 in *. split.
    + intros E. assert (lev L (idx + 1) = 0 \/ lev L (idx + 1) = 1) as [E0|E0] by lia.
      * exfalso. apply LZ in E0. lia.
      * apply LO in E0 as [m [Hm E0]]. exists m. split; [lia|]. lia.
    + intros [m [Hm E]]. assert (lev L (idx + 1) = 1); [|lia]. apply LO. exists m. split; [lia|]. rewrite E. ring.
  - rewrite P1. split.
    + intros E. assert (lev L (idx + 1) = l) as E0 by lia. apply LO in E0 as [m [Hm E0]].
      exists m. split; [lia|]. lia.
    + intros [m [Hm E]]. assert (lev L (idx + 1) = l); [|lia]. apply LO. exists m. split; [lia|]. rewrite E. ring.
Qed.

Lemma stride_pos : forall b L l, 1 <= l <= L -> 0 < strideForLevel b L l.
Proof. intros. unfold strideForLevel. destruct ((l =? 1) && (b >? 0)); apply pow2_pos; lia. Qed.

Lemma indices_In : forall b L lo up l x, 1 <= l <= L -> 0 <= lo -> 0 <= b <= 2 ->
  (In x (indices1dLocal b L lo up l) <->
   0 <= x < up - lo /\ exists m, 0 <= m /\ lo + x = offsetForLevel b L l + m * strideForLevel b L l).
Proof.
  intros b L lo up l x Hl Hlo Hb. unfold indices1dLocal. destruct (Z.gtb_spec l L); [lia|].
  cbv zeta. pose proof (stride_pos b L l Hl) as SP. set (s := strideForLevel b L l) in *.
  set (off := offsetForLevel b L l).
  assert (first : exists q, 0 <= q /\ localStartForLevel b L l lo s = q * s + off - lo /\
           0 <= q * s + off - lo /\ (forall m, 0 <= m -> lo <= off + m * s -> q <= m)).
  { unfold localStartForLevel. fold off. destruct (Z.ltb_spec lo off).
    - exists 0. repeat split; try lia.
    - exists ((lo - off + s - 1) / s).
      assert (Q : 0 <= (lo - off + s - 1) / s) by (apply Z.div_pos; lia).
      pose proof (Z.mul_succ_div_gt (lo - off + s - 1) s SP) as Q1.
      pose proof (Z.mul_div_le (lo - off + s - 1) s SP) as Q2.
      split; [lia|]. split; [reflexivity|]. split; [nia|].
      intros m Hm Hlm. apply Z.lt_succ_r. apply Z.div_lt_upper_bound; nia. }
  destruct first as (q & Hq & E & H0 & Hmin). rewrite E. rewrite zprog_In.
  unfold numPointsOnPartition.
  destruct (Z.ltb_spec (up - lo - 1) (q * s + off - lo)).
  - split.
    + intros [i [Hi _]]. lia.
    + intros [Hx [m [Hm Ex]]]. exfalso. pose proof (Hmin m Hm ltac:(lia)). nia.
  - assert (D : 0 <= (up - lo - 1 - (q * s + off - lo)) / s) by (apply Z.div_pos; lia).
    rewrite Z2Nat.id by lia. split.
    + intros [i [Hi ->]]. split.
      * pose proof (Z.mul_div_le (up - lo - 1 - (q * s + off - lo)) s SP). nia.
      * exists (q + i). split; [lia|]. ring.
    + intros [Hx [m [Hm Ex]]]. pose proof (Hmin m Hm ltac:(lia)) as Hqm. exists (m - q). split.
      * split; [lia|]. assert (m - q <= (up - lo - 1 - (q * s + off - lo)) / s); [|lia].
        apply Z.div_le_lower_bound; nia.
      * nia.
Qed.

Lemma indices_level : forall b L lo up l x, 1 <= l <= L -> 0 <= b <= 2 ->
  0 <= lo -> up <= 2 ^ L + b - 1 ->
  (In x (indices1dLocal b L lo up l) <-> 0 <= x < up - lo /\ Z.max 1 (getLevel b L (lo + x)) = l).
Proof.
  intros b L lo up l x Hl Hb Hlo Hup. rewrite indices_In by auto. split; intros [Hx H]; split; auto.
  - apply in_progression; auto; lia.
  - apply in_progression; auto; lia.
Qed.

Lemma zprog_sorted : forall n a s, 0 < s -> StronglySorted Z.lt (zprog a s n).
Proof.
  induction n; intros; cbn [zprog]; constructor; auto. apply Forall_forall. intros x Hx.
  apply zprog_In in Hx as [i [Hi ->]]. nia.
Qed.

Lemma indices_sorted : forall b L lo up l, 1 <= l -> StronglySorted Z.lt (indices1dLocal b L lo up l).
Proof.
  intros. unfold indices1dLocal. destruct (Z.gtb_spec l L); [constructor|].
  apply zprog_sorted, stride_pos. lia.
Qed.

Lemma StronglySorted_lt_NoDup : forall l, StronglySorted Z.lt l -> NoDup l.
Proof.
  induction 1; constructor; auto. intros HI. rewrite Forall_forall in H0. specialize (H0 a HI). lia.
Qed.

Lemma sorted_ext : forall l1 l2, StronglySorted Z.lt l1 -> StronglySorted Z.lt l2 ->
  (forall x, In x l1 <-> In x l2) -> l1 = l2.
Proof.
  induction l1 as [|a l1 IH]; intros [|b l2] S1 S2 H; auto.
  - exfalso. destruct (H b) as [_ H2]. apply H2. now left.
  - exfalso. destruct (H a) as [H1 _]. apply H1. now left.
  - apply StronglySorted_inv in S1 as [S1 F1]. apply StronglySorted_inv in S2 as [S2 F2].
    rewrite Forall_forall in F1, F2.
    assert (a = b).
    { destruct (proj1 (H a) (or_introl eq_refl)) as [E|E]; auto.
      destruct (proj2 (H b) (or_introl eq_refl)) as [E'|E']; auto.
      specialize (F1 b E'). specialize (F2 a E). lia. }
    subst b. f_equal. apply IH; auto. intros x. split; intros Hx.
    + destruct (proj1 (H x) (or_intror Hx)) as [E|E]; auto. specialize (F1 x Hx). lia.
    + destruct (proj2 (H x) (or_intror Hx)) as [E|E]; auto. specialize (F2 x Hx). lia.
Qed.
