(** Proofs about DecompModel.v. *)
From Verif Require Import Base TensorModel TensorProofs PartitionModel PartitionProofs DecompModel.

Lemma cdiv_le : forall a b c, 0 < b -> (cdiv a b <= c <-> a <= c * b).
Proof.
  intros. unfold cdiv. split; intros.
  - assert (- c <= (- a) / b) by lia. apply Z.mul_le_mono_nonneg_r with (p := b) in H1; [|lia].
    pose proof (Z.mul_div_le (- a) b H). nia.
  - assert (- c <= (- a) / b); [|lia]. apply Z.div_le_lower_bound; nia.
Qed.

Lemma cdiv_lt : forall a b c, 0 < b -> (c < cdiv a b <-> c * b < a).
Proof. intros. pose proof (cdiv_le a b c H). lia. Qed.

Lemma zrange0_nth : forall p i d, (i < Z.to_nat p)%nat -> nth i (zrange 0 p) d = Z.of_nat i.
Proof. intros. unfold zrange. rewrite zseq_nth by lia. lia. Qed.

Lemma default_length : forall n p f d, defaultDecomposition1 n p f = Some d -> length d = Z.to_nat p.
Proof.
  unfold defaultDecomposition1. intros n p f d. destruct (p >? n); [discriminate|]. intros E. inv E.
  rewrite map_length, zrange_length. f_equal. lia.
Qed.

Lemma default_nth : forall n p f d i, defaultDecomposition1 n p f = Some d -> (i < Z.to_nat p)%nat ->
  nth i d 0 = if f then cdiv (n * Z.of_nat i) p else (n * Z.of_nat i) / p.
Proof.
  unfold defaultDecomposition1. intros n p f d i. destruct (p >? n); [discriminate|]. intros E Hi. inv E.
  set (g := fun j => if f then cdiv (n * j) p else n * j / p).
  rewrite (nth_indep _ 0 (g 0)) by (rewrite map_length, zrange_length; lia).
  rewrite map_nth, zrange0_nth by auto. reflexivity.
Qed.

Lemma default_valid : forall n p f d, 1 <= p ->
  defaultDecomposition1 n p f = Some d -> validDec1 d n.
Proof.
  intros n p f d Hp E. pose proof (default_length _ _ _ _ E) as L.
  assert (Hpn : p <= n).
  { unfold defaultDecomposition1 in E. destruct (Z.gtb_spec p n); [discriminate|lia]. }
  assert (N : forall i, (i < length d)%nat ->
     nth i d 0 = if f then cdiv (n * Z.of_nat i) p else (n * Z.of_nat i) / p).
  { intros. eapply default_nth; eauto. lia. }
  split; [|split].
  - rewrite (nth_indep _ (-1) 0) by lia. rewrite N by lia. replace (n * Z.of_nat 0) with 0 by lia.
    unfold cdiv. simpl. rewrite Z.div_0_l by lia. destruct f; reflexivity.
  - intros i j Hij. rewrite !N by lia. destruct f.
    + apply cdiv_lt; [lia|]. pose proof (cdiv_le (n * Z.of_nat i) p (cdiv (n * Z.of_nat i) p) ltac:(lia)).
      assert (cdiv (n * Z.of_nat i) p * p < n * Z.of_nat i + p).
      { pose proof (cdiv_lt (n * Z.of_nat i) p (cdiv (n * Z.of_nat i) p - 1) ltac:(lia)). nia. }
      nia.
    + apply Z.lt_le_trans with (n * Z.of_nat i / p + 1); [lia|].
      apply Z.div_le_lower_bound; [lia|]. pose proof (Z.mul_div_le (n * Z.of_nat i) p ltac:(lia)). nia.
  - intros i Hi. rewrite N by lia. destruct f.
    + apply Z.le_lt_trans with (cdiv (n * (p - 1)) p).
      * apply cdiv_le; [lia|]. pose proof (cdiv_le (n * (p - 1)) p (cdiv (n * (p - 1)) p) ltac:(lia)). nia.
      * assert (cdiv (n * (p - 1)) p <= n - 1); [|lia]. apply cdiv_le; nia.
    + apply Z.div_lt_upper_bound; nia.
Qed.

Lemma default_valid_nd : forall sizes procs f dec,
  length sizes = length procs -> Forall (fun p => 1 <= p) procs ->
  defaultDecomposition sizes procs f = Some dec -> validDec procs sizes dec.
Proof.
  induction sizes as [|n sizes IH]; intros [|p procs] f dec HL HP E; simpl in *; try lia.
  - inv E. split; [|split]; auto. simpl. intros; lia.
  - inv HP. destruct (defaultDecomposition1 n p f) as [d|] eqn:E1; [|discriminate].
    destruct (defaultDecomposition sizes procs f) as [ds|] eqn:E2; [|discriminate]. inv E.
    destruct (IH procs f ds ltac:(lia) ltac:(assumption) E2) as (A & B & C).
    split; [simpl; lia|]. split; [simpl; lia|]. intros [|i] Hi; simpl in *.
    + split; [|eapply default_valid; eauto]. rewrite (default_length _ _ _ _ E1). lia.
    + apply C. lia.
Qed.

Lemma default_throws : forall sizes procs f, length sizes = length procs ->
  (defaultDecomposition sizes procs f = None <-> exists i, (i < length sizes)%nat /\ nth i sizes 0 < nth i procs 0).
Proof.
  induction sizes as [|n sizes IH]; intros [|p procs] f HL; simpl in *; try lia.
  - split; [discriminate|]. intros [i [Hi _]]. lia.
  - assert (H1 : defaultDecomposition1 n p f = None <-> n < p).
    { unfold defaultDecomposition1. destruct (Z.gtb_spec p n); split; intros; try lia; auto; discriminate. }
    specialize (IH procs f ltac:(lia)).
    destruct (defaultDecomposition1 n p f) as [d|].
    + assert (~ n < p) by (intro; apply H1 in H; discriminate).
      destruct (defaultDecomposition sizes procs f) as [ds|].
      * split; [discriminate|]. intros [[|i] [Hi Hlt]]; [lia|].
        exfalso. assert (@Some (list (list Z)) ds = None); [|discriminate]. apply IH. exists i. split; [lia|auto].
      * split; auto. intros _. destruct (proj1 IH eq_refl) as [i [Hi Hlt]]. exists (S i). split; [lia|auto].
    + split; auto. intros _. exists 0%nat. split; [lia|]. apply H1. reflexivity.
Qed.

(** ** Downsampling *)

(** Position of a point in units of the mesh width: grids without boundary start at one. *)
Definition gridPos (b idx : Z) : Z := if b =? 0 then idx + 1 else idx.

Lemma pow2_pos : forall k, 0 <= k -> 0 < 2 ^ k.
Proof. intros. apply Z.pow_pos_nonneg; lia. Qed.

(** An entry of the decomposition is above the coarse point iff it is above the fine point. *)
Lemma downsample1_le : forall rl nl b dec c f,
  0 <= nl <= rl -> 0 <= c -> gridPos b f = gridPos b c * 2 ^ (rl - nl) -> 0 <= b ->
  (downsample1 rl nl b dec <= c <-> dec <= f).
Proof.
  intros rl nl b dec c f Hl Hc E Hb. unfold downsample1, gridPos in *.
  pose proof (pow2_pos (rl - nl) ltac:(lia)) as P.
  destruct (Z.gtb_spec b 0).
  - rewrite cdiv_le by auto. destruct (Z.eqb_spec b 0); lia.
  - destruct (Z.eqb_spec b 0); [|lia].
    assert (A : Z.max 0 (cdiv (dec - (2 ^ (rl - nl) - 1)) (2 ^ (rl - nl))) <= c <->
                cdiv (dec - (2 ^ (rl - nl) - 1)) (2 ^ (rl - nl)) <= c) by lia.
    rewrite A, cdiv_le by auto. nia.
Qed.

Lemma numDofNodal1_formula : forall l b n, 0 <= l -> 0 <= b -> numDofNodal1 l b = Some n -> n = 2 ^ l + b - 1.
Proof.
  unfold numDofNodal1. intros l b n Hl Hb. destruct (Z.gtb_spec l 0).
  - intros E. now inv E.
  - assert (l = 0) by lia. subst. destruct (Z.eqb_spec b 0); [discriminate|]. intros E. inv E. lia.
Qed.

Lemma same_point_inside : forall rl nl b c f,
  0 <= nl <= rl -> 0 <= c -> gridPos b f = gridPos b c * 2 ^ (rl - nl) -> 0 <= b <= 2 ->
  (c < 2 ^ nl + b - 1 <-> f < 2 ^ rl + b - 1).
Proof.
  intros rl nl b c f Hl Hc E Hb. unfold gridPos in E.
  pose proof (pow2_pos (rl - nl) ltac:(lia)) as P. pose proof (pow2_pos nl ltac:(lia)) as P'.
  assert (Hp : 2 ^ rl = 2 ^ nl * 2 ^ (rl - nl)) by (rewrite <- Z.pow_add_r by lia; f_equal; lia).
  rewrite Hp. destruct (Z.eqb_spec b 0); [|]; nia.
Qed.

Lemma downsample_owner1 : forall rl nl b dec nref nnew c f k,
  0 <= nl <= rl -> 0 <= b <= 2 -> numDofNodal1 rl b = Some nref -> numDofNodal1 nl b = Some nnew ->
  0 <= c -> gridPos b f = gridPos b c * 2 ^ (rl - nl) -> 0 <= k < Z.of_nat (length dec) ->
  let dec' := map (downsample1 rl nl b) dec in
  (lo1 dec' k <= c < up1 dec' nnew k <-> lo1 dec k <= f < up1 dec nref k).
Proof.
  intros rl nl b dec nref nnew c f k Hl Hb Hr Hn Hc E Hk dec'.
  apply numDofNodal1_formula in Hr; try lia. apply numDofNodal1_formula in Hn; try lia. subst nref nnew.
  assert (N : forall i, (i < length dec)%nat -> nth i dec' 0 = downsample1 rl nl b (nth i dec 0)).
  { intros. unfold dec'. rewrite (nth_indep _ 0 (downsample1 rl nl b 0)) by (rewrite map_length; auto).
    now rewrite map_nth. }
  unfold lo1, up1. assert (HL : length dec' = length dec) by apply map_length. rewrite HL.
  rewrite N by lia.
  pose proof (downsample1_le rl nl b (nth (Z.to_nat k) dec 0) c f Hl Hc E ltac:(lia)) as H1.
  destruct (Z.ltb_spec k (Z.of_nat (length dec) - 1)).
  - rewrite N by lia.
    pose proof (downsample1_le rl nl b (nth (Z.to_nat (k + 1)) dec 0) c f Hl Hc E ltac:(lia)). lia.
  - pose proof (same_point_inside rl nl b c f Hl Hc E Hb). lia.
Qed.

(** downsampling in d dimensions *)
Lemma downsample_nth : forall decs r n b i,
  length r = length decs -> length n = length decs -> length b = length decs -> (i < length decs)%nat ->
  nth i (downsampleDecomposition decs r n b) []
  = map (downsample1 (nth i r 0) (nth i n 0) (nth i b 0)) (nth i decs []).
Proof.
  induction decs as [|d decs IH]; intros [|r0 r] [|n0 n] [|b0 b] i Hr Hn Hb Hi; simpl in *; try lia.
  destruct i; auto. apply IH; lia.
Qed.

Lemma downsample_length : forall decs r n b, length (downsampleDecomposition decs r n b) = length decs.
Proof.
  induction decs as [|d decs IH]; intros [|r0 r] [|n0 n] [|b0 b]; simpl; auto.
Qed.
