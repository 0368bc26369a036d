(** C03, C04: decompositions. *)
From Verif Require Import Base TensorModel TensorProofs PartitionModel PartitionProofs DecompModel DecompProofs.

(** C03: the default decomposition is valid for every grid and process grid, forward and backward ... *)
Theorem C03_default_valid : forall sizes procs forward dec,
  length sizes = length procs -> Forall (fun p => 1 <= p) procs ->
  defaultDecomposition sizes procs forward = Some dec -> validDec procs sizes dec.
Proof. exact default_valid_nd. Qed.

(** ... and it is refused exactly if there are more processes than points in some dimension. *)
Theorem C03_default_refused : forall sizes procs forward, length sizes = length procs ->
  (defaultDecomposition sizes procs forward = None <->
   exists i, (i < length sizes)%nat /\ nth i sizes 0 < nth i procs 0).
Proof. exact default_throws. Qed.

(** Local sizes of the default decomposition differ by at most one. *)
Theorem C03_default_balanced : forall n p forward d c,
  1 <= p -> defaultDecomposition1 n p forward = Some d -> 0 <= c < p ->
  n / p <= up1 d n c - lo1 d c <= n / p + 1.
Proof.
  intros n p f d c Hp E Hc. pose proof (default_length _ _ _ _ E) as L.
  assert (Hpn : p <= n).
  { unfold defaultDecomposition1 in E. destruct (Z.gtb_spec p n); [discriminate|lia]. }
  assert (U : up1 d n c = if f then cdiv (n * (c + 1)) p else n * (c + 1) / p).
  { unfold up1. destruct (Z.ltb_spec c (Z.of_nat (length d) - 1)).
    - rewrite (default_nth _ _ _ _ _ E) by lia. rewrite Z2Nat.id by lia. reflexivity.
    - assert (c + 1 = p) by lia. rewrite H0. unfold cdiv.
      rewrite <- Z.mul_opp_l, !Z.div_mul by lia. destruct f; lia. }
  rewrite U. unfold lo1. rewrite (default_nth _ _ _ _ _ E) by lia. rewrite Z2Nat.id by lia.
  pose proof (Z.mul_div_le n p ltac:(lia)) as Q1. pose proof (Z.mul_succ_div_gt n p ltac:(lia)) as Q2.
  destruct f.
  - pose proof (cdiv_le (n * (c + 1)) p (cdiv (n * c) p + n / p + 1) ltac:(lia)) as A.
    pose proof (cdiv_le (n * c) p (cdiv (n * c) p) ltac:(lia)) as B.
    pose proof (cdiv_le (n * c) p (cdiv (n * (c + 1)) p - n / p) ltac:(lia)) as C.
    pose proof (cdiv_le (n * (c + 1)) p (cdiv (n * (c + 1)) p) ltac:(lia)) as D.
    split; [|apply Z.le_sub_le_add_l; rewrite Z.add_assoc; apply A; nia].
    assert (cdiv (n * c) p <= cdiv (n * (c + 1)) p - n / p); [apply C; nia|lia].
  - pose proof (Z.mul_div_le (n * c) p ltac:(lia)) as A. pose proof (Z.mul_succ_div_gt (n * c) p ltac:(lia)) as B.
    split.
    + assert (n * c / p + n / p <= n * (c + 1) / p); [|lia]. apply Z.div_le_lower_bound; nia.
    + assert (n * (c + 1) / p < n * c / p + n / p + 2); [|lia]. apply Z.div_lt_upper_bound; nia.
Qed.

(** C04 in one dimension: the process owning a coarse point is the one owning the fine point at the same coordinate.
    [gridPos b f * 2^nl = gridPos b c * 2^rl] says that both points have the same coordinate. *)
Theorem C04_downsample_keeps_owner : forall rl nl b dec nref nnew c f k,
  0 <= nl <= rl -> 0 <= b <= 2 -> numDofNodal1 rl b = Some nref -> numDofNodal1 nl b = Some nnew ->
  0 <= c -> gridPos b f * 2 ^ nl = gridPos b c * 2 ^ rl -> 0 <= k < Z.of_nat (length dec) ->
  let dec' := map (downsample1 rl nl b) dec in
  (lo1 dec' k <= c < up1 dec' nnew k <-> lo1 dec k <= f < up1 dec nref k).
Proof.
  intros rl nl b dec nref nnew c f k Hl Hb Hr Hn Hc E Hk. apply downsample_owner1; auto.
  pose proof (pow2_pos nl ltac:(lia)) as P.
  assert (Hp : 2 ^ rl = 2 ^ (rl - nl) * 2 ^ nl) by (rewrite <- Z.pow_add_r by lia; f_equal; lia).
  rewrite Hp in E. nia.
Qed.

(** C04 in d dimensions, in terms of the bounds reported for each rank. *)
Theorem C04_downsample_keeps_owner_nd : forall procs sizesRef sizesNew decs rl nl bs v w r,
  shapeDec procs sizesRef decs ->
  length rl = length decs -> length nl = length decs -> length bs = length decs ->
  length v = length decs -> length w = length decs -> length sizesNew = length decs ->
  (forall i, (i < length decs)%nat ->
     0 <= nth i nl 0 <= nth i rl 0 /\ 0 <= nth i bs 0 <= 2 /\
     numDofNodal1 (nth i rl 0) (nth i bs 0) = Some (nth i sizesRef 0) /\
     numDofNodal1 (nth i nl 0) (nth i bs 0) = Some (nth i sizesNew 0) /\
     0 <= nth i v 0 /\
     gridPos (nth i bs 0) (nth i w 0) * 2 ^ nth i nl 0 = gridPos (nth i bs 0) (nth i v 0) * 2 ^ nth i rl 0) ->
  0 <= r < zprod procs ->
  let decs' := downsampleDecomposition decs rl nl bs in
  (owns procs sizesNew decs' r v <-> owns procs sizesRef decs r w).
Proof.
  intros procs sizesRef sizesNew decs rl nl bs v w r S Lr Ln Lb Lv Lw Ls H Hr decs'.
  pose proof S as (S1 & S2 & S3).
  assert (S' : shapeDec procs sizesNew decs').
  { split; [|split]; unfold decs'; rewrite downsample_length; auto.
    intros i Hi. rewrite downsample_nth, map_length by (auto; lia). apply S3; auto. }
  assert (G : forall i, (i < length procs)%nat ->
    (nth i (lowerBounds procs decs' r) 0 <= nth i v 0 < nth i (upperBounds procs sizesNew decs' r) 0 <->
     nth i (lowerBounds procs decs r) 0 <= nth i w 0 < nth i (upperBounds procs sizesRef decs r) 0)).
  { intros i Hi. rewrite (lowerBounds_nth procs sizesNew decs'), (lowerBounds_nth procs sizesRef decs) by auto.
    rewrite !upperBounds_nth by auto. unfold decs'. rewrite downsample_nth by (auto; lia).
    destruct (H i ltac:(lia)) as (A & B & C & D & E & F).
    apply C04_downsample_keeps_owner; auto.
    pose proof (coordsOfRank_inBox procs r (shapeDec_pos _ _ _ S) Hr) as IB. apply inBox_nth in IB as [_ IB].
    destruct (S3 i ltac:(lia)) as [E3 _]. rewrite <- E3. apply IB; auto. }
  unfold owns. split; intros [HL HO]; (split; [lia|]); intros i Hi; apply G; auto.
Qed.

(** Witness: level 4 without boundary on two processes, downsampled to level 2. *)
Example C04_ex : downsampleDecomposition [[0; 8]; [0; 6; 9]] [4; 4] [2; 2] [0; 2] = [[0; 2]; [0; 2; 3]].
Proof. reflexivity. Qed.
Example C03_ex : defaultDecomposition [9; 7] [2; 3] true = Some [[0; 5]; [0; 3; 5]] /\
                 defaultDecomposition [9; 7] [2; 3] false = Some [[0; 4]; [0; 2; 4]] /\
                 defaultDecomposition [9; 2] [2; 3] false = None.
Proof. repeat split. Qed.
Example C04_ex_hyp : numDofNodal1 4 0 = Some 15 /\ numDofNodal1 2 0 = Some 3 /\
  gridPos 0 11 * 2 ^ 2 = gridPos 0 2 * 2 ^ 4.
Proof. repeat split. Qed.

Print Assumptions C03_default_valid.
Print Assumptions C03_default_refused.
Print Assumptions C03_default_balanced.
Print Assumptions C04_downsample_keeps_owner.
Print Assumptions C04_downsample_keeps_owner_nd.
