(** C07, C51, C54, C58: counting degrees of freedom. *)
From Verif Require Import Base TensorModel TensorProofs PartitionModel PartitionProofs LevelSetsModel LevelSetsProofs
  DecompModel DecompProofs Level1dModel Level1dProofs DofModel DofProofs.
From Coq Require Import QArith.
Open Scope Z_scope.

(** C07: the nodal count is the sum of the hierarchical counts over the down set. *)
Theorem C07_nodal_is_sum_of_hierarchical : forall l b,
  length l = length b -> Forall (fun x => 1 <= x) l ->
  numDofHierarchicalSet (getDownSet l) b = numDofNodal l b.
Proof. exact hier_total. Qed.

(** C07: both equal the product of 2^l - 1 + b. *)
Theorem C07_nodal_formula : forall l b, length l = length b -> Forall (fun x => 1 <= x) l ->
  numDofNodal l b = zprod (map2 (fun x y => 2 ^ x - 1 + y) l b).
Proof.
  intros l b L P. rewrite numDofNodal_map2. f_equal. revert b L.
  induction P; intros [|y b] L; simpl in *; try lia; auto. f_equal; [|apply IHP; lia].
  unfold dofNodal1. destruct (Z.gtb_spec x 0); [|lia]. rewrite shift_pow by lia. ring.
Qed.

(** C07: the table-driven count used for load balancing is the same while the levels stay below 29. *)
Theorem C07_combi_dof_agrees : forall l b, length l = length b -> Forall (fun x => 1 <= x <= 28) l ->
  combiDegreesOfFreedom l b = numDofNodal l b.
Proof.
  intros l b L P. rewrite numDofNodal_map2. unfold combiDegreesOfFreedom.
  rewrite fold_mul_map with (f := fun p => if fst p >? 0 then powerOfTwo (fst p) - 1 + snd p else snd p).
  rewrite Z.mul_1_l. f_equal.
  rewrite combine_map2 with (f := fun x y => if x >? 0 then powerOfTwo x - 1 + y else y).
  revert b L. induction P; intros [|y b] L; simpl in *; try lia; auto. f_equal; [|apply IHP; lia].
  unfold dofNodal1. destruct (Z.gtb_spec x 0); [|lia]. rewrite shift_pow, powerOfTwo_spec by lia. ring.
Qed.

(** C07: the sparse grid count is the hierarchical count with both boundaries. *)
Theorem C07_sg_dof_agrees : forall ls dim,
  Forall (fun l => length l = dim /\ Forall (fun x => 1 <= x <= 29) l) ls ->
  sgDegreesOfFreedom ls = numDofHierarchicalSet ls (repeat 2 dim).
Proof.
  intros ls dim H. unfold sgDegreesOfFreedom, numDofHierarchicalSet.
  rewrite fold_add_map with (f := sgSubspaceDof).
  rewrite fold_add_map with (f := fun l => numDofHierarchical l (repeat 2 dim)).
  rewrite !Z.add_0_l. apply zsum_map_ext. intros l Hl. rewrite Forall_forall in H.
  destruct (H l Hl) as [L P]. rewrite sgSubspaceDof_prod, numDofHierarchical_map2. f_equal. subst dim. clear -P.
  induction P; cbn [map map2 length repeat]; auto. f_equal; auto. unfold numDofHierarchical1.
  destruct (Z.eqb_spec x 1); destruct (Z.gtb_spec x 1); try lia.
  rewrite shift_pow, powerOfTwo_spec by lia. reflexivity.
Qed.

(** C51: the unknowns per process add up to the total, for every decomposition. *)
Theorem C51_partition_is_complete : forall downSet ref dec,
  Forall (fun d => d <> []) dec -> length ref = length dec ->
  Forall (fun l => length l = length dec /\ Forall (fun x => 1 <= x) l) downSet ->
  zsum (partitionedNumDof downSet ref dec) = sgDegreesOfFreedom downSet.
Proof. exact partitioned_total. Qed.

(** C54: the first 29 entries are right ... *)
Theorem C54_power_table_partial : forall i, 0 <= i <= 28 ->
  powerOfTwo i = 2 ^ i /\
  (nth (Z.to_nat i) oneOverPowOfTwoTable 0 * inject_Z (2 ^ i) == 1)%Q.
Proof.
  intros i H. split; [now apply powerOfTwo_spec|].
  rewrite <- (Z2Nat.id i) at 2 by lia. assert (Z.to_nat i <= 28)%nat as L by lia.
  generalize dependent (Z.to_nat i). intros n L. do 29 (destruct n as [|n]; [reflexivity|]). lia.
Qed.

(** ... the last entry of both tables is 0. *)
Theorem C54_power_table_refuted : exists i,
  0 <= i < Z.of_nat (length powerOfTwoTable) /\ powerOfTwo i <> 2 ^ i /\
  ~ (nth (Z.to_nat i) oneOverPowOfTwoTable 0 * inject_Z (2 ^ i) == 1)%Q.
Proof. exists 29. vm_compute. split; [split; congruence|]. split; congruence. Qed.

(** C58: in each dimension the predicted extent of a subspace is the number of points of the subspace the process
    really owns, provided no process starts at the middle or at the last point of the domain. *)
Theorem C58_extents_match_registered_points_partial : forall l r dec k,
  1 <= l <= r -> r <= 28 -> validDec1 dec (2 ^ r + 1) -> (k < length dec)%nat ->
  (l = 1 -> Forall (fun s => s <> 2 ^ (r - 1) /\ s <> 2 ^ r) dec) ->
  nth k (subspaceExtents l r dec) 0
  = Z.of_nat (length (indices1dLocal 2 r (lo1 dec (Z.of_nat k)) (up1 dec (2 ^ r + 1) (Z.of_nat k)) l)).
Proof.
  intros l r dec k Hl Hr V Hk H. apply extents_count; auto. apply Forall_forall. intros s Hs E.
  specialize (H E). rewrite Forall_forall in H. auto.
Qed.

(** The same without the proviso is false: a process starting exactly at the middle loses the middle point. *)
Theorem C58_extents_match_registered_points_refuted : exists l r dec k,
  1 <= l <= r /\ r <= 28 /\ validDec1 dec (2 ^ r + 1) /\ (k < length dec)%nat /\
  nth k (subspaceExtents l r dec) 0
  <> Z.of_nat (length (indices1dLocal 2 r (lo1 dec (Z.of_nat k)) (up1 dec (2 ^ r + 1) (Z.of_nat k)) l)).
Proof.
  exists 1, 3, [0; 4], 1%nat. split; [lia|]. split; [lia|]. split.
  - split; [reflexivity|]. split.
    + intros i j H. simpl in H. assert (i = 0%nat /\ j = 1%nat) as [-> ->] by lia. reflexivity.
    + intros i H. simpl in H. destruct i as [|[|i]]; [reflexivity|reflexivity|lia].
  - split; [simpl; lia|]. vm_compute. congruence.
Qed.

Example C07_ex : numDofNodal [2; 3] [2; 0] = 35 /\ numDofHierarchicalSet (getDownSet [2; 3]) [2; 0] = 35 /\
  combiDegreesOfFreedom [2; 3] [2; 0] = 35 /\ sgDegreesOfFreedom [[1; 1]; [2; 1]; [1; 2]] = 21 /\
  numDofHierarchicalSet [[1; 1]; [2; 1]; [1; 2]] [2; 2] = 21.
Proof. vm_compute. auto. Qed.
Example C51_ex : partitionedNumDof [[1; 1]; [1; 2]; [2; 1]] [2; 2] [[0; 2]; [0; 3]] = [8; 5; 5; 3] /\
  sgDegreesOfFreedom [[1; 1]; [1; 2]; [2; 1]] = 21.
Proof. vm_compute. auto. Qed.
Example C58_ex : subspaceExtents 2 3 [0; 3; 7] = [1; 1; 0] /\ subspaceExtents 1 3 [0; 3; 7] = [1; 1; 1].
Proof. vm_compute. auto. Qed.

Print Assumptions C07_nodal_is_sum_of_hierarchical.
Print Assumptions C07_nodal_formula.
Print Assumptions C07_combi_dof_agrees.
Print Assumptions C07_sg_dof_agrees.
Print Assumptions C51_partition_is_complete.
Print Assumptions C54_power_table_partial.
Print Assumptions C54_power_table_refuted.
Print Assumptions C58_extents_match_registered_points_partial.
Print Assumptions C58_extents_match_registered_points_refuted.
