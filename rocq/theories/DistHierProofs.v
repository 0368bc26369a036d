(** Proofs about DistHierModel.v: both sides of the pole exchange compute the same index sets. *)
From Verif Require Import Base TensorModel PartitionModel PartitionProofs DecompModel DecompProofs DofModel DofProofs Level1dModel
  Level1dProofs DistHierModel.
Ltac Zify.zify_post_hook ::= idtac.

(** ** Ordered sets *)

Lemma zinsert_In : forall s x y, In y (zinsert x s) <-> y = x \/ In y s.
Proof.
  induction s as [|z s IH]; simpl; intros x y; [intuition|].
  destruct (Z.ltb_spec x z); [simpl; intuition|]. destruct (Z.eqb_spec x z).
  - subst. simpl. intuition.
  - simpl. rewrite IH. intuition.
Qed.

Lemma zinsert_sorted : forall s x, StronglySorted Z.lt s -> StronglySorted Z.lt (zinsert x s).
Proof.
  induction s as [|z s IH]; simpl; intros x H; [repeat constructor|].
  inv H. destruct (Z.ltb_spec x z).
  - constructor; [constructor; auto|]. constructor; auto. eapply Forall_impl; [|eassumption]. simpl; intros; lia.
  - destruct (Z.eqb_spec x z); [constructor; auto|]. constructor; auto.
    apply Forall_forall. intros y Hy. apply zinsert_In in Hy. destruct Hy as [-> | Hy]; [lia|].
    eapply Forall_forall in H3; eauto.
Qed.

Lemma zset_gen : forall l s, StronglySorted Z.lt s ->
  StronglySorted Z.lt (fold_left (fun s x => zinsert x s) l s) /\
  (forall y, In y (fold_left (fun s x => zinsert x s) l s) <-> In y l \/ In y s).
Proof.
  induction l as [|x l IH]; simpl; intros s H; [intuition|].
  destruct (IH (zinsert x s) (zinsert_sorted s x H)) as [H1 H2]. split; auto.
  intros y. rewrite H2, zinsert_In. intuition.
Qed.

Lemma zset_sorted : forall l, StronglySorted Z.lt (zset l).
Proof. intros l. apply (zset_gen l []). constructor. Qed.

Lemma zset_In : forall l y, In y (zset l) <-> In y l.
Proof. intros l y. destruct (zset_gen l []) as [_ H]; [constructor|]. unfold zset. rewrite H. simpl. intuition. Qed.

Lemma entryOf_In : forall m r i, In i (entryOf m r) <-> In (r, i) m.
Proof.
  intros m r i. unfold entryOf. rewrite zset_In, in_map_iff. split.
  - intros [[r' i'] [E H]]. apply filter_In in H. destruct H as [H E2]. simpl in *. apply Z.eqb_eq in E2. now subst.
  - intros H. exists (r, i). split; auto. apply filter_In. split; auto. simpl. apply Z.eqb_refl.
Qed.

Lemma keysOf_In : forall m r, In r (keysOf m) <-> exists i, In (r, i) m.
Proof.
  intros m r. unfold keysOf. rewrite zset_In, in_map_iff. split.
  - intros [[r' i] [E H]]. simpl in E. subst. eauto.
  - intros [i H]. exists (r, i). auto.
Qed.

Lemma messages_In : forall m r t is, In (r, t, is) (messages m) <->
  (is = entryOf m r /\ t = hd 0 is /\ is <> []).
Proof.
  intros m r t is. unfold messages. rewrite in_map_iff. split.
  - intros [r' [E H]]. inv E. split; auto. split; auto. apply keysOf_In in H. destruct H as [i H].
    apply entryOf_In in H. intros E. rewrite E in H. destruct H.
  - intros (-> & -> & H). exists r. split; auto. apply keysOf_In. destruct (entryOf m r) as [|i l] eqn:E; [easy|].
    exists i. apply entryOf_In. rewrite E. simpl. auto.
Qed.

Lemma entry_eq : forall m m' r r', (forall i, In (r, i) m <-> In (r', i) m') -> entryOf m r = entryOf m' r'.
Proof.
  intros m m' r r' H. apply sorted_ext; [apply zset_sorted..|]. intros i. rewrite !entryOf_In. apply H.
Qed.

(** ** While loops *)

Lemma visited_cover : forall next last fuel first, (Z.to_nat (last - first + 1) <= fuel)%nat ->
  (forall i, first <= i <= last -> i < next i) ->
  (forall x, In x (visited next fuel last first) -> first <= x <= last) /\
  (forall x, first <= x <= last -> exists v, In v (visited next fuel last first) /\ v <= x < next v) /\
  (forall v, In v (visited next fuel last first) -> next v <= last -> In (next v) (visited next fuel last first)).
Proof.
  intros next last. induction fuel as [|fuel IH]; intros first Hf Hn.
  - simpl. split; [intros x []|]. split; [intros; lia|intros v []].
  - simpl. destruct (Z.leb_spec first last) as [Hle|Hgt].
    2: { split; [intros x []|]. split; [intros; lia|intros v []]. }
    pose proof (Hn first ltac:(lia)) as N1.
    destruct (IH (next first)) as (R & C & S); [lia|intros; apply Hn; lia|].
    split; [|split].
    + intros x [<- | Hx]; [lia|]. apply R in Hx. lia.
    + intros x Hx. destruct (Z_lt_le_dec x (next first)).
      * exists first. simpl. split; [auto|lia].
      * destruct (C x ltac:(lia)) as [v [Hv Hv2]]. exists v. simpl. auto.
    + intros v [<- | Hv] Hl.
      * right. destruct fuel; [lia|]. simpl. destruct (Z.leb_spec (next first) last); [simpl; auto|lia].
      * right. auto.
Qed.

(** ** Dyadic facts about positions *)

Lemma mul_lt_inv : forall w a b, 0 < w -> w * a < w * b -> a < b.
Proof. intros w a b Hw H. apply (Z.mul_lt_mono_pos_l w); auto. Qed.

Lemma mul_gap : forall w q p, 0 < w -> w * q < w * p -> w * p < w * q + w -> False.
Proof.
  intros w q p Hw H1 H2. apply mul_lt_inv in H1; auto.
  replace (w * q + w) with (w * (q + 1)) in H2 by ring. apply mul_lt_inv in H2; lia.
Qed.

Lemma mul_step : forall w q p, 0 < w -> w * q < w * p -> w * q + w <= w * p.
Proof. intros w q p Hw H1. apply mul_lt_inv in H1; auto. nia. Qed.

Lemma lev_odd_gen : forall L p l m, l <= L -> p = 2 ^ (L - l) * (2 * m + 1) -> lev L p = l.
Proof.
  intros L p l m Hl E. pose proof (pow2_pos (L - l) ltac:(lia)) as P.
  assert (p <> 0) by (rewrite E; apply Z.neq_mul_0; lia). unfold lev. destruct (Z.eqb_spec p 0); [lia|].
  assert (C : ctz p = L - l); [|lia].
  destruct (Z_lt_le_dec 0 p).
  - apply (ctz_unique p (L - l) m); lia.
  - assert (ctz p = ctz (- p)) as ->. { destruct p; reflexivity. }
    apply (ctz_unique (- p) (L - l) (- m - 1)); nia.
Qed.

Section Dyadic.
Variables L lmin : Z.
Hypothesis HL : 0 <= lmin < L.
Let N := 2 ^ L.

Definition W (r : Z) : Z := 2 ^ (L - Z.max lmin (lev L r)).
Definition Anc (x r : Z) : Prop := x <> r /\ Z.abs (x - r) < W r.
Definition Dir (x r : Z) : Prop := lmin < lev L x /\ Z.abs (x - r) = 2 ^ (L - lev L x).

Lemma N_pos : 0 < N. Proof. apply pow2_pos. lia. Qed.

Lemma mult_lev : forall p l, 0 <= p <= N -> lev L p <= l <= L -> exists q, p = 2 ^ (L - l) * q.
Proof.
  intros p l Hp Hl. pose proof (lev_range L p ltac:(lia) Hp).
  assert (D : (2 ^ (L - l) | p)) by (apply lev_divides; unfold N in *; lia).
  destruct D as [q E]. exists q. lia.
Qed.

Lemma lev_mult : forall p l q, 0 <= p <= N -> 0 <= l <= L -> p = 2 ^ (L - l) * q -> lev L p <= l.
Proof. intros p l q Hp Hl E. apply lev_divides; unfold N in *; try lia. exists q. lia. Qed.

Lemma pow_succ : forall l, 1 <= l <= L -> 2 ^ (L - (l - 1)) = 2 * 2 ^ (L - l).
Proof. intros l H. replace (L - (l - 1)) with (1 + (L - l)) by lia. rewrite Z.pow_add_r by lia. reflexivity. Qed.

Lemma pow_mult : forall a b, a <= b <= L -> exists k, 1 <= k /\ 2 ^ (L - a) = 2 ^ (L - b) * k.
Proof.
  intros a b H. exists (2 ^ (b - a)). split; [pose proof (pow2_pos (b - a)); lia|].
  rewrite <- Z.pow_add_r by lia. f_equal. lia.
Qed.

Lemma pow_mult2 : forall a b, a < b <= L -> exists k, 1 <= k /\ 2 ^ (L - a) = 2 ^ (L - b) * (2 * k).
Proof.
  intros a b H. destruct (pow_mult a (b - 1)) as (k & Hk & E); [lia|]. exists k. split; auto.
  rewrite E. replace (L - (b - 1)) with (1 + (L - b)) by lia. rewrite Z.pow_add_r by lia. change (2 ^ 1) with 2. ring.
Qed.

Lemma odd_lev : forall x, 0 <= x <= N -> 1 <= lev L x -> exists m, x = 2 ^ (L - lev L x) * (2 * m + 1).
Proof.
  intros x Hx Hl. pose proof (lev_range L x ltac:(lia) Hx).
  destruct (proj1 (lev_odd L x (lev L x) ltac:(lia) Hx) eq_refl) as (m & _ & E). exists m. exact E.
Qed.

(** A position strictly between two neighbouring multiples of 2^(L-l) is on a higher level than [l]. *)
Lemma gap_lev : forall l a x q, 0 <= l <= L -> 0 <= x <= N -> a = 2 ^ (L - l) * q -> a < x < a + 2 ^ (L - l) -> l < lev L x.
Proof.
  intros l a x q Hl Hx Ea Hgap. destruct (Z_lt_le_dec l (lev L x)) as [|G]; auto. exfalso.
  destruct (mult_lev x l Hx ltac:(pose proof (lev_range L x ltac:(lia) Hx); lia)) as [p E].
  pose proof (pow2_pos (L - l) ltac:(lia)). set (w := 2 ^ (L - l)) in *. clearbody w.
  apply (mul_gap w q p); lia.
Qed.

Lemma succ_lev : forall p l e, 0 <= p <= N -> lev L p < l <= L -> (e = 1 \/ e = -1) -> lev L (p + e * 2 ^ (L - l)) = l.
Proof.
  intros p l e Hp Hl He. pose proof (lev_range L p ltac:(lia) Hp).
  destruct (mult_lev p (lev L p) Hp ltac:(lia)) as [q Eq].
  destruct (pow_mult2 (lev L p) l) as (k & Hk & Ek); [lia|]. rewrite Ek in Eq.
  destruct He as [-> | ->].
  - apply (lev_odd_gen L _ l (k * q)); [lia|]. rewrite Eq at 1. ring.
  - apply (lev_odd_gen L _ l (k * q - 1)); [lia|]. rewrite Eq at 1. ring.
Qed.

Lemma W_pos : forall r, 0 <= r <= N -> 0 < W r.
Proof. intros r Hr. apply pow2_pos. pose proof (lev_range L r ltac:(lia) Hr). lia. Qed.

Lemma W_mult : forall r, 0 <= r <= N -> exists q, r = W r * q.
Proof. intros r Hr. apply mult_lev; auto. pose proof (lev_range L r ltac:(lia) Hr). lia. Qed.

Lemma anc_lev : forall x r, 0 <= x <= N -> 0 <= r <= N -> Anc x r -> Z.max lmin (lev L r) < lev L x.
Proof.
  intros x r Hx Hr [Hne Hd]. pose proof (lev_range L r ltac:(lia) Hr). destruct (W_mult r Hr) as [q Eq]. unfold W in *.
  destruct (Z_lt_le_dec r x).
  - apply (gap_lev _ r x q); try lia.
  - apply (gap_lev _ (r - 2 ^ (L - Z.max lmin (lev L r))) x (q - 1)); try lia.
Qed.

Lemma pred_lev : forall x e, 0 <= x <= N -> 1 <= lev L x -> (e = 1 \/ e = -1) ->
  let p := x + e * 2 ^ (L - lev L x) in 0 <= p <= N -> lev L p < lev L x.
Proof.
  intros x e Hx Hl He p Hp. pose proof (lev_range L x ltac:(lia) Hx).
  destruct (odd_lev x Hx Hl) as [m Em]. assert (lev L p <= lev L x - 1); [|lia].
  pose proof (pow_succ (lev L x) ltac:(lia)) as P.
  destruct He as [-> | ->].
  - apply (lev_mult p _ (m + 1)); try lia.
  - apply (lev_mult p _ m); try lia.
Qed.

Lemma pred_range : forall x, 0 <= x <= N -> 1 <= lev L x ->
  0 <= x - 2 ^ (L - lev L x) /\ x + 2 ^ (L - lev L x) <= N /\ 0 < 2 ^ (L - lev L x).
Proof.
  intros x Hx Hl. pose proof (lev_range L x ltac:(lia) Hx). destruct (odd_lev x Hx Hl) as [m Em].
  pose proof (pow2_pos (L - lev L x) ltac:(lia)) as P.
  destruct (pow_mult2 0 (lev L x)) as (k & Hk & Ek); [lia|]. rewrite Z.sub_0_r in Ek. fold N in Ek.
  set (w := 2 ^ (L - lev L x)) in *. clearbody w.
  assert (-1 < 2 * m + 1) by (apply (mul_lt_inv w); lia). assert (2 * m < 2 * k) by (apply (mul_lt_inv w); lia).
  assert (0 <= w * m) by (apply Z.mul_nonneg_nonneg; lia).
  assert (w * (m + 1) <= w * k) by (apply Z.mul_le_mono_nonneg_l; lia).
  split; [|split]; lia.
Qed.

Lemma dir_pred : forall x r, Dir x r <-> (lmin < lev L x /\ exists e, (e = 1 \/ e = -1) /\ r = x + e * 2 ^ (L - lev L x)).
Proof.
  intros x r. unfold Dir. split.
  - intros [H1 H2]. split; auto. destruct (Z_le_gt_dec x r); [exists 1|exists (-1)]; lia.
  - intros [H1 (e & He & ->)]. split; auto.
    assert (0 <= 2 ^ (L - lev L x)) by (apply Z.pow_nonneg; lia). destruct He as [-> | ->]; lia.
Qed.

Lemma dir_anc : forall x r, 0 <= x <= N -> 0 <= r <= N -> Dir x r -> Anc x r.
Proof.
  intros x r Hx Hr H. pose proof (proj1 (dir_pred x r) H) as [Hl (e & He & E)].
  pose proof (lev_range L x ltac:(lia) Hx). pose proof (pred_range x Hx ltac:(lia)) as (_ & _ & P).
  pose proof (pred_lev x e Hx ltac:(lia) He) as PL. cbv zeta in PL. rewrite <- E in PL. specialize (PL Hr).
  pose proof (lev_range L r ltac:(lia) Hr).
  destruct (pow_mult2 (Z.max lmin (lev L r)) (lev L x)) as (k & Hk & Ek); [lia|].
  unfold Anc, W. rewrite Ek. destruct H as [_ Hd]. split; [lia|]. rewrite Hd.
  set (w := 2 ^ (L - lev L x)) in *. clearbody w. nia.
Qed.

Lemma anc_trans_pred : forall x p r, 0 <= x <= N -> 0 <= p <= N -> 0 <= r <= N -> Dir x p -> Anc p r -> Anc x r.
Proof.
  intros x p r Hx Hp Hr D A. pose proof (proj1 (dir_pred x p) D) as [Hl (e & He & E)].
  pose proof (lev_range L x ltac:(lia) Hx). pose proof (lev_range L p ltac:(lia) Hp).
  pose proof (lev_range L r ltac:(lia) Hr).
  pose proof (pred_lev x e Hx ltac:(lia) He) as PL. cbv zeta in PL. rewrite <- E in PL. specialize (PL Hp).
  pose proof (anc_lev p r Hp Hr A) as AL. destruct (W_mult r Hr) as [q Eq].
  destruct (mult_lev p (lev L x - 1) Hp ltac:(lia)) as [q' Ep]. rewrite pow_succ in Ep by lia.
  destruct (pow_mult2 (Z.max lmin (lev L r)) (lev L x)) as (k & Hk & Ek); [lia|].
  pose proof (pow2_pos (L - lev L x) ltac:(lia)) as P. destruct D as [_ Hd]. destruct A as [A1 A2].
  unfold Anc, W in *. rewrite Ek in *. set (w := 2 ^ (L - lev L x)) in *. clearbody w.
  clear - Eq Ep Hd A1 A2 P Hk.
  assert (B : Z.abs (p - r) <= w * (2 * k) - 2 * w /\ 2 * w <= Z.abs (p - r)).
  { assert (exists z, p - r = 2 * w * z) as [z Ez] by (exists (q' - k * q); rewrite Eq, Ep; ring).
    assert (AE : Z.abs (p - r) = 2 * w * Z.abs z) by (rewrite Ez, Z.abs_mul, (Z.abs_eq (2 * w)) by lia; ring).
    assert (z <> 0) by (intros ->; lia). rewrite AE in *.
    assert (Z.abs z < k) by (apply (mul_lt_inv (2 * w)); lia).
    assert (2 * w * Z.abs z <= 2 * w * (k - 1)) by (apply Z.mul_le_mono_nonneg_l; lia).
    assert (2 * w * 1 <= 2 * w * Z.abs z) by (apply Z.mul_le_mono_nonneg_l; lia). lia. }
  split; lia.
Qed.

Lemma anc_left : forall x r, 0 <= x <= N -> 0 <= r <= N -> Anc x r -> r < x ->
  let p := x - 2 ^ (L - lev L x) in r = p \/ (r < p /\ Anc p r).
Proof.
  intros x r Hx Hr A Hlt p. pose proof (anc_lev x r Hx Hr A). pose proof (lev_range L x ltac:(lia) Hx).
  pose proof (lev_range L r ltac:(lia) Hr).
  destruct (mult_lev x (lev L x) Hx ltac:(lia)) as [q Eq]. destruct (mult_lev r (lev L x) Hr ltac:(lia)) as [q' Eq'].
  pose proof (pow2_pos (L - lev L x) ltac:(lia)) as P. destruct A as [A1 A2].
  assert (r <= p). { unfold p. set (w := 2 ^ (L - lev L x)) in *. clearbody w. clear - Eq Eq' P Hlt.
    pose proof (mul_step w q' q P). lia. }
  destruct (Z.eq_dec r p); auto. right. split; [lia|]. split; [lia|]. unfold p in *. lia.
Qed.

Lemma anc_right : forall x r, 0 <= x <= N -> 0 <= r <= N -> Anc x r -> x < r ->
  let p := x + 2 ^ (L - lev L x) in r = p \/ (p < r /\ Anc p r).
Proof.
  intros x r Hx Hr A Hlt p. pose proof (anc_lev x r Hx Hr A). pose proof (lev_range L x ltac:(lia) Hx).
  pose proof (lev_range L r ltac:(lia) Hr).
  destruct (mult_lev x (lev L x) Hx ltac:(lia)) as [q Eq]. destruct (mult_lev r (lev L x) Hr ltac:(lia)) as [q' Eq'].
  pose proof (pow2_pos (L - lev L x) ltac:(lia)) as P. destruct A as [A1 A2].
  assert (p <= r). { unfold p. set (w := 2 ^ (L - lev L x)) in *. clearbody w. clear - Eq Eq' P Hlt.
    pose proof (mul_step w q q' P). lia. }
  destruct (Z.eq_dec r p); auto. right. split; [lia|]. split; [lia|]. unfold p in *. lia.
Qed.

(** Everything related to a position strictly between [v] and its right predecessor lies between them. *)
Lemma between_lev : forall v i, 0 <= v <= N -> 0 <= i <= N -> v < i < v + 2 ^ (L - lev L v) -> lev L v < lev L i.
Proof.
  intros v i Hv Hi H. pose proof (lev_range L v ltac:(lia) Hv).
  destruct (mult_lev v (lev L v) Hv ltac:(lia)) as [q Eq]. apply (gap_lev _ v i q); auto.
Qed.

Lemma between_succ : forall v i x, 0 <= v <= N -> 0 <= i <= N -> v < i < v + 2 ^ (L - lev L v) -> Anc x i ->
  v <= x <= v + 2 ^ (L - lev L v).
Proof.
  intros v i x Hv Hi H A. pose proof (between_lev v i Hv Hi H). pose proof (lev_range L v ltac:(lia) Hv).
  pose proof (lev_range L i ltac:(lia) Hi).
  destruct (mult_lev v (lev L v) Hv ltac:(lia)) as [q Eq]. destruct (W_mult i Hi) as [q' Eq'].
  destruct (pow_mult (lev L v) (Z.max lmin (lev L i))) as (k & Hk & Ek); [lia|]. fold (W i) in Ek.
  pose proof (W_pos i Hi) as P. destruct A as [_ A]. rewrite Ek in *. set (w := W i) in *. clearbody w.
  assert (v + w <= i /\ i + w <= v + w * k); [|lia].
  pose proof (mul_step w (k * q) q' P). pose proof (mul_step w q' (k * q + k) P). lia.
Qed.

Lemma between_pred : forall v x r, 0 <= v <= N -> 0 <= x <= N -> v < x < v + 2 ^ (L - lev L v) -> Dir x r ->
  v <= r <= v + 2 ^ (L - lev L v).
Proof.
  intros v x r Hv Hx H [Hl D]. pose proof (between_lev v x Hv Hx H). pose proof (lev_range L v ltac:(lia) Hv).
  pose proof (lev_range L x ltac:(lia) Hx).
  destruct (mult_lev v (lev L v) Hv ltac:(lia)) as [q Eq]. destruct (mult_lev x (lev L x) Hx ltac:(lia)) as [q' Eq'].
  destruct (pow_mult (lev L v) (lev L x)) as (k & Hk & Ek); [lia|].
  pose proof (pow2_pos (L - lev L x) ltac:(lia)) as P. rewrite Ek in *. set (w := 2 ^ (L - lev L x)) in *. clearbody w.
  assert (v + w <= x /\ x + w <= v + w * k); [|lia].
  pose proof (mul_step w (k * q) q' P). pose proof (mul_step w q' (k * q + k) P). lia.
Qed.

(** Successors: from [p] one step to level [l] beyond max(lmin, lev p). *)
Lemma W_succ : forall p s l, 0 <= p <= N -> Z.max lmin (lev L p) < l <= L -> lev L s = l ->
  2 ^ (L - l) = W s /\ 2 * W s <= W p.
Proof.
  intros p s l Hp Hl Es. pose proof (lev_range L p ltac:(lia) Hp).
  assert (E : W s = 2 ^ (L - l)). { unfold W. f_equal. lia. } rewrite E. split; auto.
  destruct (pow_mult2 (Z.max lmin (lev L p)) l) as (k & Hk & Ek); [lia|]. unfold W. rewrite Ek.
  pose proof (pow2_pos (L - l) ltac:(lia)). nia.
Qed.

(** The largest power of two not above a distance. *)
Lemma pow_below : forall d, 0 < d -> exists k, 0 <= k /\ 2 ^ k <= d < 2 ^ (k + 1).
Proof.
  intros d Hd. exists (Z.log2 d). split; [apply Z.log2_nonneg|].
  pose proof (Z.log2_spec d Hd) as H. replace (Z.log2 d + 1) with (Z.succ (Z.log2 d)) by lia. exact H.
Qed.

Lemma first_succ : forall p x, 0 <= p <= N -> Anc x p -> exists l, Z.max lmin (lev L p) < l <= L /\
  2 ^ (L - l) <= Z.abs (x - p) < 2 * 2 ^ (L - l).
Proof.
  intros p x Hp [H1 H2]. pose proof (lev_range L p ltac:(lia) Hp).
  destruct (pow_below (Z.abs (x - p)) ltac:(lia)) as (k & Hk & K).
  exists (L - k). replace (L - (L - k)) with k by lia.
  rewrite Z.pow_add_r in K by lia. change (2 ^ 1) with 2 in K.
  assert (k < L - Z.max lmin (lev L p)). { apply (Z.pow_lt_mono_r_iff 2); unfold W in *; lia. }
  split; lia.
Qed.
End Dyadic.
