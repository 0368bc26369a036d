(** The kernels of the serial hierarchization on one pole. *)
From Verif Require Import Base TensorModel TensorProofs PartitionModel PartitionProofs DecompModel DecompProofs DofModel DofProofs Level1dModel
  Level1dProofs SubspaceModel SubspaceProofs Hier1dModel Hier1dProofs HierMassProofs Hier1dProps
  DistHierModel DistHierProofs DistExchangeProofs DistPoleProofs HierNDModel HierNDProofs HierLinProofs HierNDProps SystemHatProofs QcTools FullGridModel.
From Coq Require Import QArith Qcanon.
Open Scope Z_scope.
Ltac Zify.zify_post_hook ::= idtac.

Section Span.
Variables (op : Qc -> Qc -> Qc) (start stride w : Z).
Hypothesis Hs : 0 < stride.
Hypothesis Hw : 0 < w.
Let at_ (j : Z) := start + j * stride.

Lemma at_inj : forall i j, at_ i = at_ j -> i = j.
Proof. unfold at_. intros. nia. Qed.

Lemma span_spec : forall n val parL off val' parL' off',
  serialSpan op start stride (w * stride) (2 * w) n (val, parL, off) = (val', parL', off') ->
  off' = off + 2 * w * Z.of_nat n /\
  parL' = (if (n =? 0)%nat then parL else (qhalf * val (at_ (off' - w)%Z))%Qc) /\
  (forall i, 0 <= i < Z.of_nat n -> val' (at_ (off + 2 * w * i)) =
     op (op (val (at_ (off + 2 * w * i))) (if i =? 0 then parL else qhalf * val (at_ (off + 2 * w * i - w)%Z))%Qc) (qhalf * val (at_ (off + 2 * w * i + w)%Z))%Qc) /\
  (forall l, (forall i, 0 <= i < Z.of_nat n -> l <> at_ (off + 2 * w * i)) -> val' l = val l).
Proof.
  induction n as [|n IH]; intros val parL off val' parL' off' E.
  - injection E as <- <- <-. simpl. split; [lia|]. split; auto. split; auto. intros; lia.
  - unfold serialSpan in E. cbn [Nat.iter nat_rect] in E. fold (serialSpan op start stride (w * stride) (2 * w) n (val, parL, off)) in E.
    change (nat_rect _ _ _ n) with (serialSpan op start stride (w * stride) (2 * w) n (val, parL, off)) in E.
    destruct (serialSpan op start stride (w * stride) (2 * w) n (val, parL, off)) as [[v1 p1] o1] eqn:E1.
    destruct (IH _ _ _ _ _ _ E1) as (I1 & I2 & I3 & I4). unfold serialStep in E. injection E as <- <- <-.
    change (start + o1 * stride) with (at_ o1).
    assert (R : forall j, (forall i, 0 <= i < Z.of_nat n -> j <> off + 2 * w * i) -> v1 (at_ j) = val (at_ j)).
    { intros j Hj. apply I4. intros i Hi X. apply at_inj in X. now apply (Hj i). }
    assert (Rp : at_ o1 + w * stride = at_ (o1 + w)) by (unfold at_; ring). rewrite Rp.
    assert (V0 : v1 (at_ o1) = val (at_ o1)) by (apply R; intros; nia).
    assert (V1 : v1 (at_ (o1 + w)) = val (at_ (o1 + w))).
    { apply R. intros i Hi X. assert (w * (2 * (Z.of_nat n - i) + 1) = 0) by (subst o1; nia). nia. }
    split; [lia|]. split; [|split].
    + simpl. rewrite V1. f_equal. f_equal. f_equal. lia.
    + intros i Hi. destruct (Z.eq_dec i (Z.of_nat n)) as [->|NE].
      * rewrite <- I1. rewrite setA_same. rewrite V0, V1. f_equal. f_equal. subst p1.
        destruct (Nat.eqb_spec n 0), (Z.eqb_spec (Z.of_nat n) 0); try lia; auto.
      * rewrite setA_other by (intros X; apply at_inj in X; nia). apply I3. lia.
    + intros l Hl. rewrite setA_other by (rewrite I1; apply Hl; lia). apply I4. intros i Hi. apply Hl. lia.
Qed.
End Span.

(** ** Levels of a pole by position *)
Section Pole.
Variables (b L start stride : Z).
Hypothesis Hb : b = 0 \/ b = 2.
Hypothesis HL : 1 <= L.
Hypothesis Hs : 0 < stride.
Let N := 2 ^ L.
Let sh := if b =? 0 then 1 else 0.
(** Cell of a position, and reading a position (zero at the ends without boundary points). *)
Definition cell (p : Z) : Z := start + (p - sh) * stride.
Definition rd (val : arr) (p : Z) : Qc := if (b =? 0) && ((p <=? 0) || (N <=? p)) then 0%Qc else val (cell p).
Definition inPole (p : Z) : Prop := sh <= p <= N - sh.

Definition levelSpec (op : Qc -> Qc -> Qc) (w : Z) (val val' : arr) : Prop :=
  (forall p, inPole p -> val' (cell p) = if p mod (2 * w) =? w
     then op (op (val (cell p)) (qhalf * rd val (p - w)%Z)%Qc) (qhalf * rd val (p + w)%Z)%Qc else val (cell p)) /\
  (forall l, (forall p, inPole p -> l <> cell p) -> val' l = val l).

Lemma cell_inj : forall p q, cell p = cell q -> p = q.
Proof. unfold cell. intros. nia. Qed.
Lemma N2 : 2 <= N.
Proof. unfold N. replace L with (1 + (L - 1)) by lia. rewrite Z.pow_add_r by lia. change (2 ^ 1) with 2. pose proof (pow2_pos (L - 1) ltac:(lia)). lia. Qed.
Lemma cell_dec : forall l, (exists p, inPole p /\ l = cell p) \/ (forall p, inPole p -> l <> cell p).
Proof.
  intros l. set (q := (l - start) / stride + sh).
  destruct (Z.eq_dec l (cell q)) as [E|E].
  - destruct (Z_le_dec sh q); [destruct (Z_le_dec q (N - sh))|].
    + left. exists q. unfold inPole. auto.
    + right. intros p Hp X. rewrite E in X. apply cell_inj in X. unfold inPole in Hp. lia.
    + right. intros p Hp X. rewrite E in X. apply cell_inj in X. unfold inPole in Hp. lia.
  - right. intros p Hp X. apply E. unfold q. rewrite X at 2. unfold cell.
    replace (start + (p - sh) * stride - start) with ((p - sh) * stride) by ring. rewrite Z.div_mul by lia. rewrite X. unfold cell. ring.
Qed.

Lemma rd_val : forall val p, inPole p -> rd val p = val (cell p).
Proof.
  intros val p Hp. unfold rd. destruct (Z.eq_dec b 0) as [B0|B0].
  - assert (S1 : sh = 1) by (unfold sh; rewrite B0; reflexivity). unfold inPole in Hp. rewrite S1 in Hp. rewrite B0. change (0 =? 0) with true.
    destruct (Z.leb_spec p 0), (Z.leb_spec N p); cbn [orb andb]; auto; lia.
  - apply Z.eqb_neq in B0. rewrite B0. reflexivity.
Qed.

(** Number of points of a level: odd multiples of [w] below [N]. *)
Lemma odd_multiple : forall w M p, 0 < w -> N = 2 * w * M -> 0 <= p <= N -> p mod (2 * w) = w -> exists i, 0 <= i < M /\ p = w + 2 * w * i.
Proof.
  intros w M p Hw HM Hp E. exists (p / (2 * w)). pose proof (Z.div_mod p (2 * w) ltac:(lia)) as D. rewrite E in D.
  assert (0 <= p / (2 * w)) by (apply Z.div_pos; lia). split; [|lia]. split; auto.
  destruct (Z_lt_le_dec (p / (2 * w)) M); auto. exfalso. assert (2 * w * M <= 2 * w * (p / (2 * w))) by nia. lia.
Qed.
Lemma odd_bounds : forall w M p, 0 < w -> N = 2 * w * M -> 0 <= p <= N -> p mod (2 * w) = w -> 0 <= p - w /\ p + w <= N.
Proof.
  intros w M p Hw HM Hp E. destruct (odd_multiple w M p Hw HM Hp E) as (i & Hi & ->).
  assert (2 * w * (i + 1) <= 2 * w * M) by (apply Z.mul_le_mono_nonneg_l; lia). assert (0 <= 2 * w * i) by (apply Z.mul_nonneg_nonneg; lia). lia.
Qed.
Lemma multiple_odd : forall w i, 0 < w -> (w + 2 * w * i) mod (2 * w) = w.
Proof. intros. rewrite Z.mul_comm, Z.mod_add by lia. apply Z.mod_small. lia. Qed.

Lemma levelB_spec : forall op w M val, b = 2 -> 0 < w -> 1 <= M -> N = 2 * w * M ->
  levelSpec op w val (serialLevelB op start stride M w (2 * w) w val).
Proof.
  intros op w M val B2 Hw HM EN. unfold serialLevelB.
  set (pl := (qhalf * val (start + w * stride - w * stride)%Z)%Qc).
  destruct (serialSpan op start stride (w * stride) (2 * w) (Z.to_nat M) (val, pl, w)) as [[v p] o] eqn:E. cbn [fst].
  destruct (span_spec op start stride w Hs Hw _ _ _ _ _ _ _ E) as (E1 & E2 & E3 & E4). clear E.
  assert (S0 : sh = 0) by (unfold sh; rewrite B2; reflexivity).
  assert (C : forall j, start + j * stride = cell j) by (intros; unfold cell; rewrite S0; ring).
  assert (RD : forall p, rd val p = val (cell p)) by (intros; unfold rd; rewrite B2; reflexivity).
  rewrite Z2Nat.id in * by lia. setoid_rewrite C in E3. setoid_rewrite C in E4. split.
  - intros q Hq. unfold inPole in Hq. rewrite S0 in Hq. destruct (Z.eqb_spec (q mod (2 * w)) w) as [Em|Em].
    + destruct (odd_multiple w M q Hw EN ltac:(lia) Em) as (i & Hi & ->). rewrite E3 by auto. f_equal; [f_equal|].
      * destruct (Z.eqb_spec i 0) as [->|]; rewrite RD; auto. unfold pl. f_equal. f_equal. unfold cell. rewrite S0. ring.
      * now rewrite RD.
    + apply E4. intros i Hi X. apply cell_inj in X. subst q. apply Em. now apply multiple_odd.
  - intros l Hl. apply E4. intros i Hi. apply Hl. unfold inPole. rewrite S0. nia.
Qed.

(** Without boundary points the first and the last point of a level are treated separately. *)
Lemma levelN_spec : forall op w M val val1 pl, (forall x, op x 0%Qc = x) -> b = 0 -> 0 < w -> 2 <= M -> N = 2 * w * M ->
  pl = (qhalf * val (cell (2 * w)))%Qc ->
  val1 = setA val (cell w) (op (val (cell w)) pl) ->
  levelSpec op w val
    (let '(v2, p2, o2) := serialSpan op start stride (w * stride) (2 * w) (Z.to_nat (M - 2)) (val1, pl, w - 1 + 2 * w) in
     setA v2 (start + o2 * stride) (op (v2 (start + o2 * stride)%Z) p2)).
Proof.
  intros op w M val val1 pl Op0 B0 Hw HM EN Epl Ev1.
  destruct (serialSpan op start stride (w * stride) (2 * w) (Z.to_nat (M - 2)) (val1, pl, w - 1 + 2 * w)) as [[v2 p2] o2] eqn:E.
  destruct (span_spec op start stride w Hs Hw _ _ _ _ _ _ _ E) as (E1 & E2 & E3 & E4). clear E.
  assert (S1 : sh = 1) by (unfold sh; rewrite B0; reflexivity).
  assert (C : forall j, start + j * stride = cell (j + 1)) by (intros; unfold cell; rewrite S1; ring).
  rewrite Z2Nat.id in * by lia. rewrite C in *.
  assert (RD : forall p, 0 < p < N -> rd val p = val (cell p)) by (intros; apply rd_val; unfold inPole; lia).
  assert (R0 : rd val 0 = 0%Qc) by (unfold rd; rewrite B0; reflexivity).
  assert (RN : rd val N = 0%Qc) by (unfold rd; rewrite B0, Z.leb_refl, orb_true_r; reflexivity).
  assert (V1 : forall p, p <> w -> val1 (cell p) = val (cell p)).
  { intros p Hp. rewrite Ev1. apply setA_other. intros X. apply cell_inj in X. lia. }
  assert (Last : o2 + 1 = w + 2 * w * (M - 1)) by lia.
  assert (P2 : p2 = (qhalf * val (cell (o2 + 1 - w)))%Qc).
  { destruct (Nat.eqb_spec (Z.to_nat (M - 2)) 0) as [Z0|Z0].
    - rewrite E2, Epl. f_equal. f_equal. f_equal. nia.
    - rewrite E2, ?C. f_equal. replace (o2 - w + 1) with (o2 + 1 - w) by lia. apply V1. nia. }
  assert (V2 : v2 (cell (o2 + 1)) = val (cell (o2 + 1))).
  { rewrite E4; [apply V1; nia|]. intros i Hi. rewrite C. intros X. apply cell_inj in X. nia. }
  split.
  - intros q Hq. unfold inPole in Hq. rewrite S1 in Hq. destruct (Z.eqb_spec (q mod (2 * w)) w) as [Em|Em].
    + destruct (odd_multiple w M q Hw EN ltac:(lia) Em) as (i & Hi & ->).
      destruct (Z.eq_dec i (M - 1)) as [->|NM].
      * rewrite <- Last. rewrite setA_same, V2, P2. replace (o2 + 1 + w) with N by lia. rewrite RN.
        replace (qhalf * 0)%Qc with 0%Qc by ring. rewrite Op0. rewrite RD by nia. reflexivity.
      * rewrite setA_other by (intros X; apply cell_inj in X; nia).
        destruct (Z.eq_dec i 0) as [->|N0].
        -- rewrite E4 by (intros j Hj; rewrite C; intros X; apply cell_inj in X; nia).
           replace (w + 2 * w * 0) with w by lia. rewrite Ev1, setA_same. rewrite Z.sub_diag, R0.
           replace (qhalf * 0)%Qc with 0%Qc by ring. rewrite Op0. f_equal. rewrite Epl, RD by nia. f_equal. f_equal. f_equal. lia.
        -- assert (X : w + 2 * w * i = w - 1 + 2 * w + 2 * w * (i - 1) + 1) by lia. rewrite X. rewrite <- C.
           rewrite E3 by lia. rewrite !C. rewrite <- X. rewrite V1 by nia. f_equal; [f_equal|].
           ++ destruct (Z.eqb_spec (i - 1) 0).
              ** rewrite Epl, RD by nia. f_equal. f_equal. f_equal. nia.
              ** rewrite RD by nia. replace (w - 1 + 2 * w + 2 * w * (i - 1) - w + 1) with (w + 2 * w * i - w) by lia. f_equal. apply V1. nia.
           ++ rewrite RD by nia. replace (w - 1 + 2 * w + 2 * w * (i - 1) + w + 1) with (w + 2 * w * i + w) by lia. f_equal. apply V1. nia.
    + rewrite setA_other.
      * rewrite E4; [apply V1|].
        -- intros ->. apply Em. rewrite Z.mod_small; lia.
        -- intros i Hi. rewrite C. intros X. apply cell_inj in X. apply Em. rewrite X.
           replace (w - 1 + 2 * w + 2 * w * i + 1) with (w + 2 * w * (i + 1)) by lia. now apply multiple_odd.
      * intros X. apply cell_inj in X. apply Em. rewrite X, Last. now apply multiple_odd.
  - intros l Hl. rewrite setA_other by (apply Hl; unfold inPole; rewrite S1; nia). rewrite E4.
    + rewrite Ev1. apply setA_other. apply Hl. unfold inPole; rewrite S1; nia.
    + intros i Hi. rewrite C. apply Hl. unfold inPole; rewrite S1; nia.
Qed.

Fixpoint chain (op : Qc -> Qc -> Qc) (ws : list Z) (v v' : arr) : Prop :=
  match ws with [] => eqA v v' | w :: ws' => exists v1, levelSpec op w v v1 /\ chain op ws' v1 v' end.
Fixpoint ups (e : Z) (n : nat) : list Z := match n with O => [] | S n' => 2 ^ e :: ups (e + 1) n' end.
Fixpoint downs (n : nat) : list Z := match n with O => [] | S n' => 2 ^ Z.of_nat n' :: downs n' end.

Lemma ups_snoc : forall n e, ups e (S n) = ups e n ++ [2 ^ (e + Z.of_nat n)].
Proof.
  induction n as [|n IH]; intros e; [simpl; do 2 f_equal; lia|].
  change (ups e (S (S n))) with (2 ^ e :: ups (e + 1) (S n)). rewrite IH. cbn [ups app]. do 4 f_equal. lia.
Qed.
Lemma downs_rev : forall n, downs n = rev (ups 0 n).
Proof. induction n as [|n IH]; auto. rewrite ups_snoc, rev_app_distr. simpl. now rewrite IH. Qed.

Lemma inPole_range : forall p, inPole p -> 0 <= p <= N.
Proof.
  intros p Hp. unfold inPole in Hp. assert (S : sh = 0 \/ sh = 1) by (unfold sh; destruct (b =? 0); auto). lia.
Qed.

Lemma rd_ext : forall u v q, eqA u v -> rd u q = rd v q.
Proof. intros u v q E. unfold rd. destruct (_ && _); auto. Qed.

Lemma rd_keep : forall op w v v' q, levelSpec op w v v' -> q mod (2 * w) <> w -> 0 <= q <= N -> rd v' q = rd v q.
Proof.
  intros op w v v' q [H _] Hq R. unfold rd. destruct (Z.eq_dec b 0) as [B0|B0].
  - assert (S1 : sh = 1) by (unfold sh; rewrite B0; reflexivity). rewrite B0. change (0 =? 0) with true. cbn [andb].
    destruct (Z.leb_spec q 0); auto. destruct (Z.leb_spec N q); auto. cbn [orb]. rewrite H by (unfold inPole; lia).
    apply Z.eqb_neq in Hq. now rewrite Hq.
  - assert (S0 : sh = 0) by (unfold sh; apply Z.eqb_neq in B0; rewrite B0; reflexivity). apply Z.eqb_neq in B0. rewrite B0. cbn [andb].
    rewrite H by (unfold inPole; lia). apply Z.eqb_neq in Hq. now rewrite Hq.
Qed.

Lemma mod_step : forall w p, 0 < w -> p mod (2 * w) = w -> (p - w) mod (2 * w) = 0 /\ (p + w) mod (2 * w) = 0.
Proof.
  intros w p Hw E. pose proof (Z.div_mod p (2 * w) ltac:(lia)) as D. rewrite E in D. split.
  - replace (p - w) with ((p / (2 * w)) * (2 * w)) by lia. apply Z.mod_mul. lia.
  - replace (p + w) with ((p / (2 * w) + 1) * (2 * w)) by lia. apply Z.mod_mul. lia.
Qed.

Lemma undo_level : forall w M v v' u u', 0 < w -> N = 2 * w * M -> levelSpec Qcminus w v v' -> levelSpec Qcplus w u u' -> eqA u v' -> eqA u' v.
Proof.
  intros w M v v' u u' Hw EN HM HP E l. pose proof HM as [M1 M2]. pose proof HP as [P1 P2]. destruct (cell_dec l) as [(p & Hp & ->)|NP].
  - rewrite P1 by auto. destruct (Z.eqb_spec (p mod (2 * w)) w) as [Em|Em].
    + rewrite E, M1 by auto. rewrite (proj2 (Z.eqb_eq _ _) Em). destruct (mod_step w p Hw Em) as [A B].
      assert (R : 0 <= p <= N) by (now apply inPole_range).
      destruct (odd_bounds w M p Hw EN R Em) as [O1 O2].
      rewrite (rd_ext u v' (p - w) E), (rd_ext u v' (p + w) E).
      rewrite (rd_keep _ w v v' (p - w) HM) by (try lia; rewrite A; lia). rewrite (rd_keep _ w v v' (p + w) HM) by (try lia; rewrite B; lia). ring.
    + rewrite E, M1 by auto. apply Z.eqb_neq in Em. now rewrite Em.
  - rewrite P2 by auto. rewrite E. apply M2. auto.
Qed.

Lemma chain_app : forall op a c v v', chain op (a ++ c) v v' -> exists m, chain op a v m /\ chain op c m v'.
Proof.
  intros op a. induction a as [|w a IH]; intros c v v' H; [exists v; split; auto; intros j; reflexivity|].
  destruct H as (v1 & H1 & H2). destruct (IH _ _ _ H2) as (m & A & B). exists m. split; auto. exists v1. auto.
Qed.

Lemma undo_chain : forall ws v v' u u', (forall w, In w ws -> 0 < w /\ exists M, N = 2 * w * M) ->
  chain Qcminus ws v v' -> chain Qcplus (rev ws) u u' -> eqA u v' -> eqA u' v.
Proof.
  induction ws as [|w ws IH]; intros v v' u u' HW H1 H2 E.
  - intros j. cbn [chain rev] in *. rewrite <- (H2 j), (E j), <- (H1 j). reflexivity.
  - destruct H1 as (v1 & HM & HC). cbn [rev] in H2. apply chain_app in H2 as (m & H3 & x & HP & Ex).
    assert (Em : eqA m v1) by (apply (IH v1 v' u m); auto; intros; apply HW; now right).
    destruct (HW w ltac:(now left)) as [W0 [M EM]]. pose proof (undo_level w M v v1 m x W0 EM HM HP Em) as R.
    intros j. rewrite <- Ex. apply R.
Qed.

Lemma pow2_split : forall e, 0 <= e < L -> N = 2 * 2 ^ e * 2 ^ (L - 1 - e).
Proof. intros e He. unfold N. rewrite <- Z.mul_assoc, <- Z.pow_add_r by lia. rewrite <- Z.pow_succ_r by lia. f_equal. lia. Qed.

(** *** The loops *)
Lemma shiftr1 : forall x, 0 <= x -> Z.shiftr (2 * 2 ^ x) 1 = 2 ^ x.
Proof. intros. rewrite Z.shiftr_div_pow2 by lia. change (2 ^ 1) with 2. rewrite Z.mul_comm. apply Z.div_mul. lia. Qed.

Lemma hierB_chain : forall n e val, b = 2 -> 0 <= e -> e + Z.of_nat n = L ->
  chain Qcminus (ups e n) val (serialHierBLoop n start stride L (L - 1 - e) (Z.shiftl 1 (L - 1 - e)) (2 ^ e) (2 * 2 ^ e) (2 ^ e) val).
Proof.
  induction n as [|n IH]; intros e val B2 He EL; [intros j; reflexivity|]. cbn [ups serialHierBLoop].
  pose proof (pow2_split e ltac:(lia)) as PS. pose proof (pow2_pos e ltac:(lia)) as P1. pose proof (pow2_pos (L - 1 - e) ltac:(lia)) as P2.
  rewrite Z.shiftl_1_l in *. eexists. split; [apply (levelB_spec Qcminus (2 ^ e) (2 ^ (L - 1 - e))); auto; lia|].
  assert (EP : 2 * 2 ^ e = 2 ^ (e + 1)) by (rewrite Z.pow_add_r by lia; change (2 ^ 1) with 2; ring).
  replace (Z.shiftl 1 (L - (L - 1 - e))) with (2 ^ (e + 1)) by (rewrite Z.shiftl_1_l; f_equal; lia).
  replace (Z.shiftl (2 * 2 ^ e) 1) with (2 * 2 ^ (e + 1)) by (rewrite Z.shiftl_mul_pow2 by lia; change (2 ^ 1) with 2; lia).
  rewrite EP. destruct n as [|n]; [intros j; reflexivity|].
  replace (Z.shiftr (2 ^ (L - 1 - e)) 1) with (Z.shiftl 1 (L - 1 - (e + 1))).
  2:{ replace (L - 1 - e) with (Z.succ (L - 1 - (e + 1))) by lia. rewrite Z.pow_succ_r by lia. rewrite shiftr1 by lia. apply Z.shiftl_1_l. }
  replace (L - 1 - e - 1) with (L - 1 - (e + 1)) by lia. apply IH; auto; lia.
Qed.

Lemma hierN_chain : forall n e val, b = 0 -> 0 <= e -> e + Z.of_nat n = L - 1 ->
  chain Qcminus (ups e n) val (serialHierNLoop n start stride L (L - 1 - e) (Z.shiftl 1 (L - 1 - e)) (2 ^ e - 1) (2 * 2 ^ e) (2 ^ e) val).
Proof.
  induction n as [|n IH]; intros e val B0 He EL; [intros j; reflexivity|]. cbn [ups serialHierNLoop].
  pose proof (pow2_split e ltac:(lia)) as PS. pose proof (pow2_pos e ltac:(lia)) as P1.
  assert (P2 : 2 ^ (L - 1 - e) = 2 * 2 ^ (L - 1 - (e + 1))) by (replace (L - 1 - e) with (Z.succ (L - 1 - (e + 1))) by lia; now rewrite Z.pow_succ_r by lia).
  pose proof (pow2_pos (L - 1 - (e + 1)) ltac:(lia)) as P3. rewrite Z.shiftl_1_l in *.
  assert (S1 : sh = 1) by (unfold sh; rewrite B0; reflexivity).
  assert (C1 : start + (2 ^ e - 1) * stride = cell (2 ^ e)) by (unfold cell; rewrite S1; reflexivity).
  assert (C2 : cell (2 ^ e) + 2 ^ e * stride = cell (2 * 2 ^ e)) by (unfold cell; rewrite S1; ring).
  assert (C3 : start + (2 ^ e - 1 + 2 * 2 ^ e) * stride - 2 ^ e * stride = cell (2 * 2 ^ e)) by (unfold cell; rewrite S1; ring).
  exists (serialLevelN start stride (2 ^ (L - 1 - e)) (2 ^ e - 1) (2 * 2 ^ e) (2 ^ e) val). split.
  - unfold serialLevelN. rewrite C1, C2, C3.
    apply (levelN_spec Qcminus (2 ^ e) (2 ^ (L - 1 - e))); auto; try lia.
    + intros x. ring.
    + f_equal. apply setA_other. intros X. apply cell_inj in X. lia.
    + rewrite setA_other by (intros X; apply cell_inj in X; lia). reflexivity.
  - assert (EP : 2 * 2 ^ e = 2 ^ (e + 1)) by (rewrite Z.pow_add_r by lia; change (2 ^ 1) with 2; ring).
    replace (Z.shiftl 1 (L - (L - 1 - e))) with (2 ^ (e + 1)) by (rewrite Z.shiftl_1_l; f_equal; lia).
    replace (Z.shiftl (2 * 2 ^ e) 1) with (2 * 2 ^ (e + 1)) by (rewrite Z.shiftl_mul_pow2 by lia; change (2 ^ 1) with 2; lia).
    rewrite EP. replace (Z.shiftr (2 ^ (L - 1 - e)) 1) with (Z.shiftl 1 (L - 1 - (e + 1))).
    2:{ rewrite P2, shiftr1 by lia. apply Z.shiftl_1_l. }
    replace (L - 1 - e - 1) with (L - 1 - (e + 1)) by lia. apply IH; auto; lia.
Qed.

Lemma dehierB_chain : forall n val, b = 2 -> Z.of_nat n <= L ->
  chain Qcplus (downs n) val (serialDehierBLoop n start stride L (L - Z.of_nat n + 1) (2 ^ (L - Z.of_nat n)) (Z.shiftl 1 (Z.of_nat n - 1))
    (Z.shiftl 1 (Z.of_nat n)) (Z.shiftl 1 (Z.of_nat n - 1)) val).
Proof.
  induction n as [|n IH]; intros val B2 EL; [intros j; reflexivity|]. cbn [downs serialDehierBLoop].
  replace (Z.of_nat (S n) - 1) with (Z.of_nat n) by lia. rewrite !Z.shiftl_1_l.
  pose proof (pow2_pos (Z.of_nat n) ltac:(lia)) as P1. pose proof (pow2_pos (L - Z.of_nat (S n)) ltac:(lia)) as P2.
  assert (PN : 2 ^ Z.of_nat (S n) = 2 * 2 ^ Z.of_nat n) by (rewrite Nat2Z.inj_succ, Z.pow_succ_r by lia; reflexivity).
  rewrite PN. eexists. split.
  - apply (levelB_spec Qcplus (2 ^ Z.of_nat n) (2 ^ (L - Z.of_nat (S n)))); auto; try lia.
    rewrite (pow2_split (Z.of_nat n)) by lia. do 2 f_equal. lia.
  - replace (L - Z.of_nat (S n) + 1 + 1) with (L - Z.of_nat n + 1) by lia.
    replace (Z.shiftl (2 ^ (L - Z.of_nat (S n))) 1) with (2 ^ (L - Z.of_nat n)).
    2:{ rewrite Z.shiftl_mul_pow2 by lia. change (2 ^ 1) with 2. replace (L - Z.of_nat n) with (Z.succ (L - Z.of_nat (S n))) by lia. rewrite Z.pow_succ_r by lia. ring. }
    rewrite shiftr1 by lia. replace (L - (L - Z.of_nat n + 1)) with (Z.of_nat n - 1) by lia.
    destruct n as [|n]; [intros j; reflexivity|].
    replace (Z.shiftr (2 ^ Z.of_nat (S n)) 1) with (Z.shiftl 1 (Z.of_nat (S n) - 1)).
    2:{ rewrite Nat2Z.inj_succ, Z.pow_succ_r by lia. rewrite shiftr1 by lia. rewrite Z.shiftl_1_l. f_equal. lia. }
    setoid_rewrite Z.shiftl_1_l in IH. rewrite ?Z.shiftl_1_l. apply IH; auto. lia.
Qed.

Lemma dehierN_chain : forall n val, b = 0 -> Z.of_nat n <= L - 1 ->
  chain Qcplus (downs n) val (serialDehierNLoop n start stride L (L - Z.of_nat n + 1) (2 ^ (L - Z.of_nat n)) (Z.shiftl 1 (Z.of_nat n - 1) - 1)
    (Z.shiftl 1 (Z.of_nat n)) (Z.shiftl 1 (Z.of_nat n - 1)) val).
Proof.
  induction n as [|n IH]; intros val B0 EL; [intros j; reflexivity|]. cbn [downs serialDehierNLoop].
  replace (Z.of_nat (S n) - 1) with (Z.of_nat n) by lia. rewrite !Z.shiftl_1_l.
  pose proof (pow2_pos (Z.of_nat n) ltac:(lia)) as P1.
  assert (P2 : 2 ^ (L - Z.of_nat (S n)) = 2 * 2 ^ (L - 1 - Z.of_nat (S n))) by (replace (L - Z.of_nat (S n)) with (Z.succ (L - 1 - Z.of_nat (S n))) by lia; now rewrite Z.pow_succ_r by lia).
  pose proof (pow2_pos (L - 1 - Z.of_nat (S n)) ltac:(lia)) as P3.
  assert (PN : 2 ^ Z.of_nat (S n) = 2 * 2 ^ Z.of_nat n) by (rewrite Nat2Z.inj_succ, Z.pow_succ_r by lia; reflexivity).
  rewrite PN. set (w := 2 ^ Z.of_nat n) in *.
  assert (S1 : sh = 1) by (unfold sh; rewrite B0; reflexivity).
  assert (C1 : start + (w - 1) * stride = cell w) by (unfold cell; rewrite S1; reflexivity).
  assert (C2 : cell w + w * stride = cell (2 * w)) by (unfold cell; rewrite S1; ring).
  exists (serialLevelND start stride (2 ^ (L - Z.of_nat (S n))) (w - 1) (2 * w) w val). split.
  - unfold serialLevelND. rewrite C1, C2. apply (levelN_spec Qcplus w (2 ^ (L - Z.of_nat (S n)))); auto; try lia.
    + intros x. ring.
    + rewrite (pow2_split (Z.of_nat n)) by lia. fold w. do 2 f_equal. lia.
  - subst w. replace (L - Z.of_nat (S n) + 1 + 1) with (L - Z.of_nat n + 1) by lia.
    replace (Z.shiftl (2 ^ (L - Z.of_nat (S n))) 1) with (2 ^ (L - Z.of_nat n)).
    2:{ rewrite Z.shiftl_mul_pow2 by lia. change (2 ^ 1) with 2. replace (L - Z.of_nat n) with (Z.succ (L - Z.of_nat (S n))) by lia. rewrite Z.pow_succ_r by lia. ring. }
    rewrite shiftr1 by lia. replace (L - (L - Z.of_nat n + 1)) with (Z.of_nat n - 1) by lia.
    destruct n as [|n]; [intros j; reflexivity|].
    replace (Z.shiftr (2 ^ Z.of_nat (S n)) 1) with (Z.shiftl 1 (Z.of_nat (S n) - 1)).
    2:{ rewrite Nat2Z.inj_succ, Z.pow_succ_r by lia. rewrite shiftr1 by lia. rewrite Z.shiftl_1_l. f_equal. lia. }
    setoid_rewrite Z.shiftl_1_l in IH. rewrite ?Z.shiftl_1_l. apply IH; auto. lia.
Qed.

(** Number of levels that are visited. *)
Definition visited : nat := Z.to_nat (if b =? 0 then L - 1 else L).

Lemma serialHier_chain : forall val, chain Qcminus (ups 0 visited) val (serialPole false b L start stride val).
Proof.
  intros val. unfold serialPole, visited. destruct Hb as [B | B]; rewrite B; cbn [Z.eqb].
  - unfold serialHierN. pose proof (hierN_chain (Z.to_nat (L - 1)) 0 val B ltac:(lia) ltac:(lia)) as H.
    rewrite Z.sub_0_r in H. exact H.
  - unfold serialHierB. pose proof (hierB_chain (Z.to_nat L) 0 val B ltac:(lia) ltac:(lia)) as H.
    rewrite Z.sub_0_r in H. exact H.
Qed.
Lemma serialDehier_chain : forall val, chain Qcplus (rev (ups 0 visited)) val (serialPole true b L start stride val).
Proof.
  intros val. rewrite <- downs_rev. unfold serialPole, visited. destruct Hb as [B | B]; rewrite B; cbn [Z.eqb].
  - unfold serialDehierN. pose proof (dehierN_chain (Z.to_nat (L - 1)) val B ltac:(lia)) as H. rewrite Z2Nat.id in H by lia.
    replace (L - (L - 1) + 1) with 2 in H by lia. replace (L - (L - 1)) with 1 in H by lia. replace (L - 1 - 1) with (L - 2) in H by lia. exact H.
  - unfold serialDehierB. pose proof (dehierB_chain (Z.to_nat L) val B ltac:(lia)) as H. rewrite Z2Nat.id in H by lia.
    rewrite Z.sub_diag in H. exact H.
Qed.

Lemma ups_In : forall n e w, In w (ups e n) -> exists e', e <= e' < e + Z.of_nat n /\ w = 2 ^ e'.
Proof.
  induction n as [|n IH]; intros e w H; [destruct H|]. destruct H as [<-|H]; [exists e; split; [lia|auto]|].
  destruct (IH _ _ H) as (e' & A & B). exists e'. split; [lia|auto].
Qed.

Lemma serial_undo : forall v u, eqA u (serialPole false b L start stride v) -> eqA (serialPole true b L start stride u) v.
Proof.
  intros v u E. eapply undo_chain; [|apply serialHier_chain|apply serialDehier_chain|exact E].
  intros w Hw. apply ups_In in Hw as (e & He & ->). split; [apply pow2_pos; lia|]. eexists. apply pow2_split.
  unfold visited in He. destruct (b =? 0); lia.
Qed.

(** *** Values after hierarchization *)
Lemma mod_pow_other : forall e e' p, 0 <= e < e' -> p mod (2 * 2 ^ e') = 2 ^ e' -> p mod (2 * 2 ^ e) <> 2 ^ e.
Proof.
  intros e e' p He E. pose proof (pow2_pos e ltac:(lia)). pose proof (Z.div_mod p (2 * 2 ^ e') ltac:(pose proof (pow2_pos e' ltac:(lia)); lia)) as D. rewrite E in D.
  assert (X : 2 ^ e' = 2 * 2 ^ e * 2 ^ (e' - e - 1)).
  { rewrite <- Z.mul_assoc, <- Z.pow_add_r by lia. rewrite <- Z.pow_succ_r by lia. f_equal. lia. }
  rewrite X in D at 1 3. replace p with ((2 * 2 ^ (e' - e - 1) * (p / (2 * 2 ^ e')) + 2 ^ (e' - e - 1)) * (2 * 2 ^ e)) by lia.
  rewrite Z.mod_mul by lia. lia.
Qed.

Lemma mod_zero_other : forall e e' q, 0 <= e < e' -> q mod (2 * 2 ^ e') = 0 -> q mod (2 * 2 ^ e) <> 2 ^ e.
Proof.
  clear. intros e e' q He Hq. pose proof (pow2_pos e ltac:(lia)) as P. pose proof (pow2_pos e' ltac:(lia)) as P'.
  assert (X : 2 ^ e' = 2 ^ e * 2 ^ (e' - e)) by (rewrite <- Z.pow_add_r by lia; f_equal; lia).
  pose proof (Z.div_mod q (2 * 2 ^ e') ltac:(lia)) as D. rewrite Hq in D. set (k := q / (2 * 2 ^ e')) in *. clearbody k. subst q. clear Hq.
  rewrite X. replace (2 * (2 ^ e * 2 ^ (e' - e)) * k + 0) with ((2 ^ (e' - e) * k) * (2 * 2 ^ e)) by ring. rewrite Z.mod_mul by lia. lia.
Qed.

Lemma chain_values : forall n e v v' p, 0 <= e -> e + Z.of_nat n <= L -> chain Qcminus (ups e n) v v' -> inPole p ->
  (forall e', e <= e' < e + Z.of_nat n -> p mod (2 * 2 ^ e') = 2 ^ e' ->
     v' (cell p) = (v (cell p) - qhalf * rd v (p - 2 ^ e')%Z - qhalf * rd v (p + 2 ^ e')%Z)%Qc) /\
  ((forall e', e <= e' < e + Z.of_nat n -> p mod (2 * 2 ^ e') <> 2 ^ e') -> v' (cell p) = v (cell p)).
Proof.
  induction n as [|n IH]; intros e v v' p He EL HC Hp.
  - split; [intros; lia|]. intros _. symmetry. apply HC.
  - destruct HC as (v1 & HM & HC). destruct (IH (e + 1) v1 v' p ltac:(lia) ltac:(lia) HC Hp) as [A B]. pose proof HM as [M1 M2]. split.
    + intros e' He' Em. assert (LE : 0 <= e' < L) by (clear - He He' EL; lia). destruct (Z.eq_dec e' e) as [->|NE].
      * rewrite B. { rewrite M1 by auto. rewrite (proj2 (Z.eqb_eq _ _) Em). reflexivity. }
        intros e2 He2 E2. apply (mod_pow_other e e2 p) in E2; [congruence|lia].
      * rewrite (A e') by (auto; lia). rewrite M1 by auto. pose proof (mod_pow_other e e' p ltac:(lia) Em) as NM.
        rewrite (proj2 (Z.eqb_neq _ _) NM).
        assert (P1 : 0 < 2 ^ e') by (apply pow2_pos; lia).
        destruct (mod_step (2 ^ e') p P1 Em) as [D1 D2].
        assert (R : 0 <= p <= N) by (now apply inPole_range).
        pose proof (pow2_split e' LE) as EN.
        destruct (odd_bounds (2 ^ e') (2 ^ (L - 1 - e')) p P1 EN R Em) as [O1 O2].
        assert (Z0 : forall q, q mod (2 * 2 ^ e') = 0 -> q mod (2 * 2 ^ e) <> 2 ^ e) by (intros q; apply mod_zero_other; clear - He He' NE; lia).
        assert (Q1 : 0 <= p - 2 ^ e' <= N) by (clear - O1 O2 P1; lia). assert (Q2 : 0 <= p + 2 ^ e' <= N) by (clear - O1 O2 P1; lia).
        rewrite (rd_keep _ _ v v1 (p - 2 ^ e') HM (Z0 _ D1) Q1), (rd_keep _ _ v v1 (p + 2 ^ e') HM (Z0 _ D2) Q2). reflexivity.
    + intros HN. rewrite B by (intros e' He'; apply HN; lia). rewrite M1 by auto. rewrite (proj2 (Z.eqb_neq _ _) (HN e ltac:(lia))). reflexivity.
Qed.
Lemma chain_other : forall n e v v' l, chain Qcminus (ups e n) v v' -> (forall p, inPole p -> l <> cell p) -> v' l = v l.
Proof.
  induction n as [|n IH]; intros e v v' l HC Hl; [symmetry; apply HC|]. destruct HC as (v1 & [_ M2] & HC). rewrite (IH _ _ _ _ HC Hl). now apply M2.
Qed.
End Pole.

Definition poleN (b L : Z) : Z := 2 ^ L + b - 1.

Lemma serialHier_pole : forall b L start stride val, b = 0 \/ b = 2 -> 1 <= L <= 28 -> 0 < stride ->
  (forall j, 0 <= j < poleN b L -> serialPole false b L start stride val (start + j * stride) = poleOp Hat false b L 0 (poleN b L) (fun i => val (start + i * stride)) j) /\
  (forall l, (forall j, 0 <= j < poleN b L -> l <> start + j * stride) -> serialPole false b L start stride val l = val l).
Proof.
  intros b L start stride val Hb HL Hs. unfold poleN. pose proof (pow2_pos L ltac:(lia)) as PL. assert (HL1 : 1 <= L) by lia.
  pose proof (serialHier_chain b L start stride Hb ltac:(lia) Hs val) as HC. unfold visited in HC.
  set (sh := if b =? 0 then 1 else 0).
  assert (CE : forall j, start + j * stride = cell b start stride (j + sh)) by (intros; unfold cell; fold sh; ring).
  split.
  - intros j Hj. rewrite poleOp_hat; [|lia|lia|lia|auto|left; reflexivity|lia].
    set (p := j + sh). assert (GP : gridPos b j = p) by (unfold gridPos, p, sh; destruct (b =? 0); lia). rewrite GP.
    assert (IP : inPole b L p) by (unfold inPole, p, sh in *; destruct Hb as [-> | ->]; simpl in *; lia).
    assert (PR : 0 <= p <= 2 ^ L) by (unfold inPole in IP; destruct Hb as [-> | ->]; simpl in IP; lia).
    assert (RP : forall q, 0 <= q <= 2 ^ L -> rd b L start stride val q = padded b L (fun i => val (start + i * stride)) q).
    { intros q Hq. unfold rd, padded. destruct Hb as [-> | ->].
      - change (0 =? 0) with true. cbn [andb]. destruct (Z.leb_spec q 0), (Z.leb_spec (2 ^ L) q), (Z.ltb_spec 0 q), (Z.ltb_spec q (2 ^ L)); cbn [andb orb]; try lia; auto.
      - unfold cell. change (2 =? 0) with false. change (2 =? 1) with false. cbn [andb]. f_equal. ring. }
    assert (VP : val (cell b start stride p) = padded b L (fun i => val (start + i * stride)) p).
    { rewrite <- RP by auto. symmetry. apply rd_val; auto; lia. }
    rewrite CE. fold p. unfold hatSurplus.
    assert (VN : 0 + Z.of_nat (Z.to_nat (if b =? 0 then L - 1 else L)) <= L) by (destruct (b =? 0); lia).
    destruct (chain_values b L start stride Hb HL1 _ 0 _ _ p (Z.le_refl 0) VN HC IP) as [A B].
    rewrite <- !RP by (try lia). destruct ((0 <? p) && (p <? 2 ^ L) && (0 <? lev L p)) eqn:CD.
    + apply andb_true_iff in CD as [CD C3]. apply andb_true_iff in CD as [C1 C2]. apply Z.ltb_lt in C1, C2, C3.
      pose proof (lev_range L p ltac:(lia) PR) as LR. pose proof (proj1 (lev_mod L p (lev L p) ltac:(lia) PR) eq_refl) as MD.
      set (e := L - lev L p) in *. assert (W0 : 0 < 2 ^ e) by (apply pow2_pos; lia).
      assert (PW : 0 <= p - 2 ^ e /\ p + 2 ^ e <= 2 ^ L).
      { destruct (odd_multiple b L HL1 (2 ^ e) (2 ^ (L - 1 - e)) p W0 (pow2_split b L HL1 e ltac:(lia)) PR MD) as (i & Hi & Ep). pose proof (pow2_split b L HL1 e ltac:(lia)). nia. }
      rewrite <- !RP by lia.
      destruct (Z_lt_le_dec e (0 + Z.of_nat (Z.to_nat (if b =? 0 then L - 1 else L)))) as [Lt|Ge].
      * rewrite (A e) by (auto; lia). rewrite (RP p PR), VP. ring.
      * rewrite B.
        -- assert (B0 : b = 0) by (destruct Hb; auto; subst b; simpl in Ge; lia). subst b. simpl in Ge. assert (e = L - 1) by lia.
           pose proof (pow2_split 0 L HL1 e ltac:(lia)) as PS. replace (L - 1 - e) with 0 in PS by lia. change (2 ^ 0) with 1 in PS.
           assert (Ep : p = 2 ^ e) by (rewrite Z.mod_small in MD; lia).
           assert (R0 : rd 0 L start stride val (p - 2 ^ e) = 0%Qc) by (unfold rd; rewrite (proj2 (Z.leb_le (p - 2 ^ e) 0)) by lia; reflexivity).
           assert (R1 : rd 0 L start stride val (p + 2 ^ e) = 0%Qc) by (unfold rd; rewrite (proj2 (Z.leb_le (2 ^ L) (p + 2 ^ e))) by lia; rewrite orb_true_r; reflexivity).
           rewrite R0, R1, VP, (RP p PR). ring.
        -- intros e' He' E'. apply (mod_pow_other b L HL1 e' e p) in MD; [auto|lia].
    + rewrite B; [rewrite VP, RP by lia; reflexivity|]. intros e' He' E'.
      pose proof (pow2_pos e' ltac:(lia)) as W0.
      destruct (odd_multiple b L HL1 (2 ^ e') (2 ^ (L - 1 - e')) p W0 (pow2_split b L HL1 e' ltac:(destruct (b =? 0); lia)) PR E') as (i & Hi & Ep).
      pose proof (pow2_split b L HL1 e' ltac:(destruct (b =? 0); lia)) as PS.
      assert (LV : lev L p = L - e') by (apply lev_mod; [destruct (b =? 0); lia|lia|]; replace (L - (L - e')) with e' by lia; auto).
      rewrite LV in CD. rewrite (proj2 (Z.ltb_lt 0 p)) in CD by nia. rewrite (proj2 (Z.ltb_lt p (2 ^ L))) in CD by nia.
      rewrite (proj2 (Z.ltb_lt 0 (L - e'))) in CD by (destruct (b =? 0); lia). discriminate.
  - intros l Hl. apply (chain_other b L start stride _ 0 _ _ l HC). intros p Hp. replace p with (p - sh + sh) by lia. rewrite <- CE. apply Hl.
    unfold inPole in Hp. unfold sh. destruct Hb as [-> | ->]; simpl in *; lia.
Qed.

Lemma hat_suitable : forall b n g, suitable Hat b n g.
Proof. intros. split; [|split]; auto. intros _ [X|X]; discriminate X. Qed.

Lemma poleOp_inverse : forall b L g j, b = 0 \/ b = 2 -> 1 <= L <= 28 -> 0 <= j < poleN b L ->
  poleOp Hat false b L 0 (poleN b L) (poleOp Hat true b L 0 (poleN b L) g) j = g j.
Proof.
  intros b L g j Hb HL Hj. set (n := poleN b L) in *.
  destruct (C18_pole_roundtrip Hat b L 0 n (fun _ => 0%Qc) (fun _ => 0%Qc) g ltac:(lia) HL ltac:(lia)) as [_ (h & d & E1 & E2 & R)].
  - unfold numDofNodal1. destruct (Z.gtb_spec L 0); [reflexivity|lia].
  - apply hat_suitable.
  - unfold poleOp at 2. rewrite E1. unfold poleOp. rewrite E2. now apply R.
Qed.

Lemma serial_pole : forall (de : bool) b L start stride val, b = 0 \/ b = 2 -> 1 <= L <= 28 -> 0 < stride ->
  (forall j, 0 <= j < poleN b L -> serialPole de b L start stride val (start + j * stride) = poleOp Hat de b L 0 (poleN b L) (fun i => val (start + i * stride)) j) /\
  (forall l, (forall j, 0 <= j < poleN b L -> l <> start + j * stride) -> serialPole de b L start stride val l = val l).
Proof.
  intros [|] b L start stride val Hb HL Hs; [|now apply serialHier_pole].
  set (n := poleN b L). set (g := fun i => val (start + i * stride)). set (h := poleOp Hat true b L 0 n g).
  set (a := fun l => let q := (l - start) / stride in if (l =? start + q * stride) && (0 <=? q) && (q <? n) then h q else val l).
  assert (A1 : forall j, 0 <= j < n -> a (start + j * stride) = h j).
  { intros j Hj. unfold a. replace (start + j * stride - start) with (j * stride) by ring. rewrite Z.div_mul by lia. cbv zeta.
    rewrite Z.eqb_refl, (proj2 (Z.leb_le 0 j)), (proj2 (Z.ltb_lt j n)) by lia. reflexivity. }
  assert (A2 : forall l, (forall j, 0 <= j < n -> l <> start + j * stride) -> a l = val l).
  { intros l Hl. unfold a. cbv zeta. set (q := (l - start) / stride).
    destruct (Z.eqb_spec l (start + q * stride)) as [E|E]; auto. destruct (Z.leb_spec 0 q), (Z.ltb_spec q n); auto. exfalso. apply (Hl q); auto. }
  destruct (serialHier_pole b L start stride a Hb HL Hs) as [H1 H2]. fold n in H1, H2.
  assert (E : eqA val (serialPole false b L start stride a)).
  { intros l. destruct (Z.eq_dec l (start + (l - start) / stride * stride)) as [E|E].
    - set (q := (l - start) / stride) in *. destruct (Z_le_dec 0 q) as [Q1|Q1]; [destruct (Z_lt_dec q n) as [Q2|Q2]|].
      + rewrite E. rewrite H1 by lia.
        pose proof (poleOp_lin Hat false b L 0 n ltac:(lia) ltac:(lia) ltac:(lia) eq_refl) as LR.
        rewrite (linRange_ext n _ LR _ h) by (auto; lia). unfold h. rewrite poleOp_inverse by (auto; fold n; lia). reflexivity.
      + assert (NP : forall j, 0 <= j < n -> l <> start + j * stride) by (intros j Hj X; assert (j = q) by nia; lia).
        rewrite H2, A2 by auto. reflexivity.
      + assert (NP : forall j, 0 <= j < n -> l <> start + j * stride) by (intros j Hj X; assert (j = q) by nia; lia).
        rewrite H2, A2 by auto. reflexivity.
    - assert (NP : forall j, 0 <= j < n -> l <> start + j * stride).
      { intros j Hj X. apply E. rewrite X at 2. replace (start + j * stride - start) with (j * stride) by ring. rewrite Z.div_mul by lia. exact X. }
      rewrite H2, A2 by auto. reflexivity. }
  pose proof (serial_undo b L start stride Hb ltac:(lia) Hs a val E) as U. split.
  - intros j Hj. rewrite U. fold n in Hj. rewrite A1 by auto. reflexivity.
  - intros l Hl. rewrite U. now apply A2.
Qed.

(** ** All poles of a dimension *)
Definition holds (sizes : list Z) (val : arr) (F : list Z -> Qc) : Prop := forall v, inBox sizes v -> val (sequentialIndex sizes v) = F v.

Lemma sweep_serial : forall de b L A s B val F, b = 0 \/ b = 2 -> 1 <= L <= 28 -> s = poleN b L -> posExt (A ++ s :: B) ->
  holds (A ++ s :: B) val F ->
  holds (A ++ s :: B) (fold_left (fun v p => serialPole de b L (snd p) (zprod A) v) (polesNoBoundary (A ++ s :: B) (length A)) val)
        (opAt (length A) (poleOp Hat de b L 0 s) F).
Proof.
  intros de b L A s B val F Hb HL Es PE HF v Hv. set (sizes := A ++ s :: B) in *.
  destruct (poles_spec A s B PE) as (_ & P2 & _ & N2). pose proof (proj1 (posExt_split A s B) PE) as (PA & Ps & PB). pose proof (zprod_posExt A PA) as ZA.
  pose proof Hv as Hv'. unfold sizes in Hv'. apply inBox_split in Hv'. destruct Hv' as (a & x & bb & EV & Ha & Hx & Hbb).
  pose proof (inBox_length _ _ Ha) as LAa. pose proof (lin_range A a Ha) as RA. pose proof (lin_range B bb Hbb) as RB.
  set (pole := (lin A a + lin B bb * zprod A, lin B bb * (zprod A * s) + lin A a)).
  assert (Hpole : isPole A s B pole) by (exists (lin A a), (lin B bb); auto).
  assert (SQ : forall i, sequentialIndex sizes (a ++ i :: bb) = snd pole + i * zprod A).
  { intros i. rewrite sequentialIndex_lin. unfold sizes. rewrite lin_split by lia. unfold pole. cbn [snd]. ring. }
  set (g := fun i => F (a ++ i :: bb)).
  set (V := fun l => poleOp Hat de b L 0 s g ((l - snd pole) / zprod A)).
  rewrite EV, SQ.
  assert (OA : opAt (length A) (poleOp Hat de b L 0 s) F (a ++ x :: bb) = V (snd pole + x * zprod A)).
  { unfold opAt, V. replace (snd pole + x * zprod A - snd pole) with (x * zprod A) by ring. rewrite Z.div_mul by lia. rewrite nth_split' by auto.
    pose proof (poleOp_lin Hat de b L 0 s ltac:(lia) ltac:(lia) ltac:(lia) Es) as LR. apply (linRange_ext s _ LR); auto.
    intros i Hi. unfold g. now rewrite upd_split'. }
  rewrite OA. apply (fold_poles (fun p ld => serialPole de b L (snd p) (zprod A) ld) (onPole A s) V _ pole val); auto.
  - intros p ld l _ NP. destruct (serial_pole de b L (snd p) (zprod A) ld Hb HL ltac:(lia)) as [_ H]. apply H. intros j Hj X. apply NP.
    exists j. split; [subst s; auto|]. rewrite X. ring.
  - intros p' l Hp' H1 H2. apply (pole_disjoint A s B p' pole l); auto. now apply P2.
  - intros ld Hld l (i & Hi & El). destruct (serial_pole de b L (snd pole) (zprod A) ld Hb HL ltac:(lia)) as [H _].
    replace l with (snd pole + i * zprod A) by (rewrite El; ring). rewrite H by (rewrite <- Es; auto). unfold V.
    replace (snd pole + i * zprod A - snd pole) with (i * zprod A) by ring. rewrite Z.div_mul by lia. rewrite <- Es.
    pose proof (poleOp_lin Hat de b L 0 s ltac:(lia) ltac:(lia) ltac:(lia) Es) as LR. apply (linRange_ext s _ LR); auto.
    intros j Hj. rewrite Hld by (exists j; split; auto; ring). rewrite <- SQ. unfold g. apply HF. apply inBox_split. exists a, j, bb. auto.
  - now apply P2.
  - exists x. split; auto. ring.
Qed.

Lemma sweep_outside : forall de b L A s B val l, b = 0 \/ b = 2 -> 1 <= L <= 28 -> s = poleN b L -> posExt (A ++ s :: B) ->
  l < 0 \/ zprod (A ++ s :: B) <= l ->
  fold_left (fun v p => serialPole de b L (snd p) (zprod A) v) (polesNoBoundary (A ++ s :: B) (length A)) val l = val l.
Proof.
  intros de b L A s B val l Hb HL Es PE Hl. destruct (poles_spec A s B PE) as (_ & P2 & _ & _).
  pose proof (proj1 (posExt_split A s B) PE) as (PA & Ps & PB). pose proof (zprod_posExt A PA) as ZA. rewrite zprod_split in Hl.
  assert (G : forall ps, (forall p, In p ps -> isPole A s B p) -> forall v,
            fold_left (fun v p => serialPole de b L (snd p) (zprod A) v) ps v l = v l).
  { induction ps as [|p ps IH]; intros H v; auto. cbn [fold_left]. rewrite IH by (intros; apply H; now right).
    destruct (serial_pole de b L (snd p) (zprod A) v Hb HL ltac:(lia)) as [_ K]. apply K. intros j Hj X.
    destruct (H p (or_introl eq_refl)) as (nl & nh & H1 & H2 & ->). cbn [snd] in X. rewrite <- Es in Hj. subst l. clear - Hl ZA Ps H1 H2 Hj.
    set (w := zprod A) in *. assert (0 <= nh * (w * s)) by nia. assert (0 <= j * w) by nia. assert (nh * (w * s) + w * s <= zprod B * (w * s)) by nia.
    assert (j * w + w <= w * s) by nia. nia. }
  apply G. intros p Hp. now apply P2.
Qed.

(** ** All dimensions *)
Definition serialCfg (c : HCfg) : Prop := wfCfg c /\
  forall k, (k < length (hLevels c))%nat -> 1 <= nth k (hLevels c) 0 /\ (nth k (hBnds c) 0 = 0 \/ nth k (hBnds c) 0 = 2) /\
    nth k (hDims c) false = true /\ nth k (hBases c) Hat = Hat /\ nth k (hLmin c) 0 = 0.

Lemma skipn_cons : forall {A} (d : A) l k, (k < length l)%nat -> skipn k l = nth k l d :: skipn (S k) l.
Proof. induction l as [|x l IH]; intros [|k] H; simpl in H; try lia; auto. cbn [skipn nth]. rewrite IH by lia. reflexivity. Qed.

Lemma fold_ext' : forall {A B} (f g : A -> B -> A) l a, (forall a x, f a x = g a x) -> fold_left f l a = fold_left g l a.
Proof. intros A B f g l. induction l as [|x l IH]; intros a H; simpl; auto. rewrite H. now apply IH. Qed.

Lemma fold_map : forall {A B C} (f : C -> B -> C) (g : A -> B) l c, fold_left (fun s x => f s (g x)) l c = fold_left f (map g l) c.
Proof. induction l as [|x l IH]; intros c; simpl; auto. Qed.

Lemma table_pow : forall l, 0 <= l <= 28 -> powerOfTwo l = 2 ^ l.
Proof. intros l Hl. now apply powerOfTwo_spec. Qed.

Lemma fgSizes_global : forall levels bs, length bs = length levels -> (forall k, (k < length levels)%nat -> 1 <= nth k levels 0 <= 28) ->
  fgSizes levels bs = globalSizes levels bs.
Proof.
  induction levels as [|L levels IH]; intros [|b bs] LB H; simpl in LB; try lia; auto.
  unfold fgSizes, globalSizes. cbn [map2]. f_equal.
  - pose proof (H 0%nat ltac:(simpl; lia)) as HL. cbn [nth] in HL. unfold fgPoints, numDofNodal1. rewrite table_pow by lia.
    destruct (Z.gtb_spec L 0); [|lia]. reflexivity.
  - apply IH; [lia|]. intros k Hk. apply (H (S k)). simpl. lia.
Qed.

Lemma fgElements_prod : forall levels bs, fgElements levels bs = zprod (fgSizes levels bs).
Proof.
  intros. unfold fgElements, zprod. assert (G : forall l a, fold_left (fun acc n : Z => acc * n) l a = a * fold_right Z.mul 1 l).
  { induction l as [|x l IH]; intros a; cbn [fold_left fold_right]; [ring|]. rewrite IH. ring. }
  rewrite G. ring.
Qed.

Lemma serialRest_spec : forall c de, serialCfg c -> forall n k val F, (k + n = length (hLevels c))%nat ->
  holds (hSizes c) val F ->
  holds (hSizes c) (serialRest de (skipn k (hLevels c)) (skipn k (hBnds c)) (zprod (hSizes c)) (zprod (firstn k (hSizes c))) val)
        (opAll c de (seq k n) F) /\
  (forall l, l < 0 \/ zprod (hSizes c) <= l ->
     serialRest de (skipn k (hLevels c)) (skipn k (hBnds c)) (zprod (hSizes c)) (zprod (firstn k (hSizes c))) val l = val l).
Proof.
  intros c de [HW HC]. induction n as [|n IH]; intros k val F Hk HF.
  - rewrite !skipn_all2 by (destruct HW as (_ & LB & _); lia). split; [exact HF|reflexivity].
  - destruct HW as (Hd & LB & LM & VD & HP). destruct (HC k ltac:(lia)) as (L1 & Bk & Dk & Fk & Mk). destruct (HP k ltac:(lia)) as (L2 & _).
    assert (HWc : wfCfg c) by (split; [auto|]; split; [auto|]; split; [auto|]; split; auto).
    pose proof (n_formula c k HWc ltac:(lia)) as NF. pose proof (sizes_length c HWc) as SL.
    assert (EL : skipn k (hLevels c) = nth k (hLevels c) 0 :: skipn (S k) (hLevels c)) by (apply (skipn_cons 0); lia).
    assert (EB : skipn k (hBnds c) = nth k (hBnds c) 0 :: skipn (S k) (hBnds c)) by (apply (skipn_cons 0); lia).
    rewrite EL, EB. cbn [serialRest seq]. set (L := nth k (hLevels c) 0) in *. set (b := nth k (hBnds c) 0) in *.
    assert (SP : serialPoints L b = poleN b L) by (unfold serialPoints, poleN; destruct Bk as [-> | ->]; simpl; lia). rewrite SP.
    set (A := firstn k (hSizes c)). set (s := poleN b L). set (B := skipn (S k) (hSizes c)).
    assert (LA : length A = k) by (unfold A; rewrite firstn_length; lia).
    assert (ES : hSizes c = A ++ s :: B).
    { unfold A, B. rewrite <- (firstn_skipn k (hSizes c)) at 1. f_equal. rewrite (skipn_cons 0) by lia. rewrite NF. reflexivity. }
    assert (PE : posExt (A ++ s :: B)).
    { rewrite <- ES. unfold posExt. apply Forall_forall. intros x Hx. apply (In_nth _ _ 0) in Hx as (i & Hi & <-).
      rewrite (n_formula c i HWc ltac:(lia)). destruct (HC i ltac:(lia)) as (Li & Bi & _).
      pose proof (Z.pow_le_mono_r 2 1 (nth i (hLevels c) 0) ltac:(lia) Li). change (2 ^ 1) with 2 in *. lia. }
    assert (NE : A ++ s :: B <> []) by (destruct A; discriminate).
    set (val' := fold_left _ _ val).
    assert (EV : val' = fold_left (fun v p => serialPole de b L (snd p) (zprod A) v) (polesNoBoundary (A ++ s :: B) (length A)) val).
    { unfold val', polesNoBoundary. unfold localOffsets. rewrite offsets_split, nth_split_at, tensorSize_prod, Z.mul_1_l by auto. rewrite ES.
      rewrite <- fold_map. reflexivity. }
    assert (H1 : holds (hSizes c) val' (dimOp c de k F)).
    { rewrite EV. pose proof (sweep_serial de b L A s B val F Bk ltac:(lia) eq_refl PE) as SW. rewrite <- ES in SW at 1. specialize (SW HF).
      intros v Hv. rewrite ES in Hv |- *. rewrite SW by auto. unfold dimOp, active. rewrite Dk, Mk. fold L. fold b.
      destruct (Z.ltb_spec 0 L); [|lia]. cbn [andb]. rewrite Fk. unfold opAt. rewrite LA, NF. reflexivity. }
    specialize (IH (S k) val' (dimOp c de k F) ltac:(lia) H1).
    replace (zprod (firstn (S k) (hSizes c))) with (zprod A * s) in IH.
    2:{ rewrite ES. replace (S k) with (length (A ++ [s])) by (rewrite app_length; simpl; lia).
        replace (A ++ s :: B) with ((A ++ [s]) ++ B) by (rewrite <- app_assoc; reflexivity). rewrite firstn_app, Nat.sub_diag, firstn_all, firstn_O, app_nil_r.
        rewrite zprod_split. simpl. ring. }
    destruct IH as [IH1 IH2]. split; [exact IH1|]. intros l Hl. etransitivity; [apply IH2; exact Hl|].
    rewrite EV. apply sweep_outside; auto; [lia|]. rewrite <- ES. exact Hl.
Qed.

Lemma serialAll_rest : forall de levels bs val, serialAll de levels bs val = serialRest de levels bs (fgElements levels bs) 1 val.
Proof.
  intros de [|L levels] [|b bs] val; auto. unfold serialAll. cbv zeta. set (size := fgElements (L :: levels) (b :: bs)). clearbody size.
  cbn [serialRest]. rewrite Z.mul_1_l. f_equal. apply fold_ext'.
  intros v kk. rewrite Z.quot_1_r, Z.rem_1_r, Z.add_0_r. reflexivity.
Qed.
