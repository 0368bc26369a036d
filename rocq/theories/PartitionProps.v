(** C02: every grid point is owned by exactly one process. *)
From Verif Require Import Base TensorModel TensorProofs PartitionModel PartitionProofs.

(** Ranks and process coordinates are in bijection and the coordinates are the ones MPI uses. *)
Theorem C02_rank_coords_bijection : forall dims r,
  Forall (fun e => 0 < e) dims -> 0 <= r < zprod dims ->
  coordsOfRank dims r = mpiCartCoords dims r /\
  Forall2 (fun e x => 0 <= x < e) dims (coordsOfRank dims r) /\
  rankOfCoords dims (coordsOfRank dims r) = r.
Proof.
  intros. split; [now apply coordsOfRank_cart|]. split; [now apply coordsOfRank_inBox|]. now apply rank_coords.
Qed.

Theorem C02_coords_rank_bijection : forall dims c,
  Forall2 (fun e x => 0 <= x < e) dims c ->
  0 <= rankOfCoords dims c < zprod dims /\ coordsOfRank dims (rankOfCoords dims c) = c.
Proof. intros. split; [now apply rank_range|now apply coords_rank]. Qed.

(** Existence and uniqueness of the owner, and getPartitionCoords finds it. *)
Theorem C02_unique_owner : forall dims sizes dec v,
  validDec dims sizes dec -> Forall2 (fun e x => 0 <= x < e) sizes v ->
  exists r, (0 <= r < zprod dims) /\ coordsOfRank dims r = partitionCoords dec v /\
    Forall2 Z.le (lowerBounds dims dec r) v /\ Forall2 Z.lt v (upperBounds dims sizes dec r) /\
    (forall r', 0 <= r' < zprod dims ->
       Forall2 Z.le (lowerBounds dims dec r') v -> Forall2 Z.lt v (upperBounds dims sizes dec r') -> r' = r).
Proof.
  intros dims sizes dec v V B. destruct (partitionCoords_inBox dims sizes dec v V B) as [IB O].
  exists (rankOfCoords dims (partitionCoords dec v)). pose proof (rank_range _ _ IB) as R.
  split; auto. split; [now apply coords_rank|].
  destruct O as [L O]. split; [|split].
  - apply (Forall2_nth_iff _ _ Z.le 0 0). rewrite (lowerBounds_length dims sizes) by auto.
    split; [lia|]. intros i Hi. specialize (O i Hi). lia.
  - apply (Forall2_nth_iff _ _ Z.lt 0 0). rewrite upperBounds_length.
    split; [lia|]. intros i Hi. specialize (O i ltac:(lia)). lia.
  - intros r' Hr' H1 H2. apply (owner_unique dims sizes dec v); auto; [|split; auto].
    apply (Forall2_nth_iff _ _ Z.le 0 0) in H1 as [_ H1]. rewrite (lowerBounds_length dims sizes) in H1 by auto.
    apply (Forall2_nth_iff _ _ Z.lt 0 0) in H2 as [_ H2].
    split; auto. intros i Hi. specialize (H1 i Hi). specialize (H2 i ltac:(lia)). lia.
Qed.

(** The lower_bound-based search used by the neighbour exchange finds the same 1d owner. *)
Theorem C02_axis_search_agrees : forall dec1 n x,
  validDec1 dec1 n -> 0 <= x < n -> neighbor1dPartition dec1 n x = partitionCoord1d dec1 x.
Proof.
  intros dec1 n x V Hx. destruct (neighbor1dPartition_spec _ _ _ V Hx) as [A1 A2].
  destruct (partitionCoord1d_spec _ _ _ V Hx) as [B1 B2]. eapply owner1_unique; eauto.
Qed.

(** The boxes of the processes tile the global box: same points, each once. *)
Theorem C02_boxes_tile : forall dims sizes dec,
  validDec dims sizes dec ->
  Permutation (flat_map (fun r => boxPoints (lowerBounds dims dec r) (upperBounds dims sizes dec r))
                        (zrange 0 (zprod dims)))
              (boxPoints (repeat 0 (length sizes)) sizes).
Proof. exact tiles. Qed.

(** The local numbers of points are positive and add up to the global number of points. *)
Theorem C02_local_sizes_sum : forall dims sizes dec,
  validDec dims sizes dec ->
  zsum (map (fun r => zprod (vsub (upperBounds dims sizes dec r) (lowerBounds dims dec r))) (zrange 0 (zprod dims)))
  = zprod sizes.
Proof.
  intros dims sizes dec V. pose proof (tiles _ _ _ V) as T. apply Permutation_length in T.
  assert (G : forall rs, (forall r, In r rs -> 0 <= r < zprod dims) ->
    Z.of_nat (length (flat_map (fun r => boxPoints (lowerBounds dims dec r) (upperBounds dims sizes dec r)) rs))
    = zsum (map (fun r => zprod (vsub (upperBounds dims sizes dec r) (lowerBounds dims dec r))) rs)).
  { induction rs as [|r rs IH]; intros Hrs; [reflexivity|]. cbn [flat_map map]. unfold zsum. cbn [fold_right].
    rewrite app_length, Nat2Z.inj_add, IH by (intros; apply Hrs; now right).
    unfold zsum. f_equal. apply boxPoints_length.
    pose proof (Hrs r (or_introl eq_refl)) as Hr.
    apply (Forall2_nth_iff _ _ Z.le 0 0). rewrite upperBounds_length, (lowerBounds_length dims sizes) by auto.
    split; auto. intros i Hi. rewrite (lowerBounds_nth dims sizes), upperBounds_nth by auto.
    pose proof V as (H1 & H2 & Hv). destruct (Hv i ltac:(lia)) as [E V1].
    pose proof (coordsOfRank_inBox dims r (validDec_pos _ _ _ V) Hr) as B. apply inBox_nth in B as [L B].
    specialize (B i Hi). rewrite E in B. pose proof (validDec1_range _ _ _ V1 B). lia. }
  rewrite <- G by (intros r Hr; now apply zrange_In in Hr). rewrite T.
  rewrite boxPoints_length.
  - f_equal. clear. induction sizes; simpl; auto. f_equal; [lia|auto].
  - apply (Forall2_nth_iff _ _ Z.le 0 0). rewrite repeat_length. split; auto.
    intros i Hi. rewrite nth_repeat. pose proof V as (H1 & H2 & Hv). destruct (Hv i ltac:(lia)) as [E V1].
    destruct (validDec1_nonempty _ _ V1) as [Hl H0]. destruct V1 as (_ & _ & U). specialize (U 0%nat Hl). lia.
Qed.

(** Witness: 2 x 3 processes on a 9 x 9 grid, uneven decomposition. *)
Example C02_ex_valid : validDec [2; 3] [9; 9] [[0; 5]; [0; 2; 7]].
Proof.
  split; [reflexivity|]. split; [reflexivity|]. intros i Hi.
  assert (E : forall (P : nat -> Prop) n, (forall k, In k (seq 0 n) -> P k) -> forall k, (k < n)%nat -> P k).
  { intros P n H k Hk. apply H. apply in_seq. lia. }
  revert i Hi. apply E. intros i Hi. simpl in Hi. destruct Hi as [<-|[<-|[]]]; (split; [reflexivity|]);
  (split; [reflexivity|split]).
  - intros i j Hij. simpl in Hij. destruct i as [|[|i]], j as [|[|j]]; simpl; lia.
  - intros i Hi. simpl in Hi. destruct i as [|[|i]]; simpl; lia.
  - intros i j Hij. simpl in Hij. destruct i as [|[|[|i]]], j as [|[|[|j]]]; simpl; lia.
  - intros i Hi. simpl in Hi. destruct i as [|[|[|i]]]; simpl; lia.
Qed.
Example C02_ex_compute :
  coordsOfRank [2; 3] 4 = [1; 1] /\ lowerBounds [2; 3] [[0; 5]; [0; 2; 7]] 4 = [5; 2] /\
  upperBounds [2; 3] [9; 9] [[0; 5]; [0; 2; 7]] 4 = [9; 7] /\ partitionCoords [[0; 5]; [0; 2; 7]] [6; 4] = [1; 1].
Proof. vm_compute. auto. Qed.

Print Assumptions C02_rank_coords_bijection.
Print Assumptions C02_coords_rank_bijection.
Print Assumptions C02_unique_owner.
Print Assumptions C02_axis_search_agrees.
Print Assumptions C02_boxes_tile.
Print Assumptions C02_local_sizes_sum.
