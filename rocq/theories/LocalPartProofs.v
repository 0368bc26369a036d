(** The parts of the processes enumerate the points of the grid, each once. *)
From Verif Require Import Base TensorModel TensorProofs PartitionModel PartitionProofs DecompModel SubspaceModel SubspaceProofs Hier1dModel HierMassProofs HierNDProps DofModel QcTools InterpModel InterpProofs.
From Coq Require Import QArith Qcanon Permutation Lqa.
Open Scope Z_scope.
Ltac Zify.zify_post_hook ::= idtac.

Lemma localPart_wf : forall procs sizes decs r, validDec procs sizes decs -> 0 <= r < zprod procs -> wfLocal (localPart procs sizes decs r).
Proof.
  intros procs sizes decs r V Hr. pose proof V as (H1 & H2 & Hv). unfold wfLocal, localPart; cbn [lgLower lgUpper lgGlobal].
  rewrite (lowerBounds_length procs sizes), upperBounds_length by auto.
  pose proof (validDec_pos _ _ _ V) as P. pose proof (coordsOfRank_inBox procs r P Hr) as B. apply inBox_nth in B as [_ B].
  assert (K : forall i, (i < length procs)%nat -> 0 <= nth i (lowerBounds procs decs r) 0 < nth i (upperBounds procs sizes decs r) 0
     /\ nth i (upperBounds procs sizes decs r) 0 <= nth i sizes 0).
  { intros i Hi. rewrite (lowerBounds_nth procs sizes), upperBounds_nth by auto. destruct (Hv i ltac:(lia)) as [E V1].
    specialize (B i ltac:(lia)). rewrite E in B. pose proof (validDec1_range _ _ _ V1 B). lia. }
  split; [lia|]. split; [lia|]. split; apply (Forall2_nth_iff _ _ _ 0 0).
  - rewrite (lowerBounds_length procs sizes), upperBounds_length by auto. split; auto. intros i Hi. apply K. lia.
  - rewrite upperBounds_length. split; [lia|]. intros i Hi. apply K. lia.
Qed.

Lemma numLocal_zprod : forall g, lgGlobal g <> [] -> wfLocal g -> numLocal g = zprod (lgLocalSizes g).
Proof.
  intros g HN (H1 & H2 & _). unfold numLocal. apply tensorSize_prod. intros E. apply HN. apply length_zero_iff_nil.
  rewrite <- H2. unfold lgLocalSizes in E. apply (f_equal (@length Z)) in E. rewrite vsub_length in E by lia. exact E.
Qed.

(** The local points of one process, in the order of their local linear index. *)
Lemma local_points : forall g, lgGlobal g <> [] -> wfLocal g ->
  Permutation (map (fun k => vadd (lgLower g) (getVectorIndex (lgLocalSizes g) k)) (zrange 0 (numLocal g))) (boxPoints (lgLower g) (lgUpper g)).
Proof.
  intros g HN HW. pose proof HW as (H1 & H2 & H3 & H4). rewrite numLocal_zprod by auto.
  pose proof (wfLocal_sizes_pos g HW) as P.
  assert (LU : forall k, 0 <= k < zprod (lgLocalSizes g) -> length (unlin (lgLocalSizes g) k) = length (lgLower g)).
  { intros k Hk. rewrite (inBox_length _ _ (unlin_inBox _ k P)). unfold lgLocalSizes. rewrite vsub_length; lia. }
  apply NoDup_Permutation.
  - apply NoDup_map_inj; [apply zrange_NoDup|]. intros a b Ha Hb E. apply zrange_In in Ha, Hb.
    rewrite !getVectorIndex_unlin in E by auto. apply (f_equal (fun v => vsub v (lgLower g))) in E.
    assert (VS : forall k, 0 <= k < zprod (lgLocalSizes g) -> vsub (vadd (lgLower g) (unlin (lgLocalSizes g) k)) (lgLower g) = unlin (lgLocalSizes g) k).
    { intros k Hk. apply (local_in_global g); auto. now apply unlin_inBox. }
    rewrite !VS in E by auto. rewrite <- (lin_unlin (lgLocalSizes g) a), <- (lin_unlin (lgLocalSizes g) b) by auto. now rewrite E.
  - apply boxPoints_NoDup.
  - intros v. rewrite in_map_iff, boxPoints_In by lia. split.
    + intros (k & <- & Hk). apply zrange_In in Hk. rewrite getVectorIndex_unlin by auto.
      pose proof (unlin_inBox (lgLocalSizes g) k P) as IB. apply inBox_nth in IB as [L IB].
      specialize (LU k Hk).
      split; [rewrite vadd_length; lia|]. intros i Hi.
      assert (EL : length (lgLocalSizes g) = length (lgLower g)) by (unfold lgLocalSizes; rewrite vsub_length; lia).
      specialize (IB i ltac:(lia)).
      assert (ES : nth i (lgLocalSizes g) 0 = nth i (lgUpper g) 0 - nth i (lgLower g) 0).
      { unfold lgLocalSizes. apply SubspaceProofs.vsub_nth; lia. }
      rewrite HierNDProps.vadd_nth by lia. lia.
    + intros [L B]. exists (sequentialIndex (lgLocalSizes g) (vsub v (lgLower g))).
      assert (HH : isGlobalIndexHere g v = true).
      { unfold isGlobalIndexHere, vgeb, vltb. apply andb_true_iff. split; (apply vall_spec; [lia|]); apply (Forall2_nth_iff _ _ _ 0 0); (split; [lia|]); intros i Hi; specialize (B i ltac:(lia)); lia. }
      destruct (here_local g v HW ltac:(lia) HH) as [IB E]. rewrite sequentialIndex_lin. pose proof (lin_range _ _ IB) as R.
      rewrite getVectorIndex_unlin, unlin_lin by auto. split; auto. now apply zrange_In.
Qed.

(** The sum over all local points of all processes is the sum over the global points. *)
Lemma sum_all_points : forall procs sizes decs (f : Z -> Z -> Qc) (F : list Z -> Qc), validDec procs sizes decs -> sizes <> [] ->
  (forall r k, 0 <= r < zprod procs -> let g := localPart procs sizes decs r in 0 <= k < numLocal g ->
     f r k = F (vadd (lgLower g) (getVectorIndex (lgLocalSizes g) k))) ->
  qsum (map (fun r => qsum (map (f r) (zrange 0 (numLocal (localPart procs sizes decs r))))) (zrange 0 (zprod procs)))
  = qsum (map F (boxPoints (repeat 0 (length sizes)) sizes)).
Proof.
  intros procs sizes decs f F V HN H. rewrite <- (qs_perm _ _ (Permutation_map F (tiles _ _ _ V))). rewrite qs_flat_map.
  apply qs_ext. intros r Hr. apply zrange_In in Hr.
  pose proof (localPart_wf procs sizes decs r V Hr) as HW. pose proof (local_points (localPart procs sizes decs r) HN HW) as P.
  apply (Permutation_map F) in P. rewrite map_map in P. cbn [localPart lgLower lgUpper] in P. rewrite <- (qs_perm _ _ P).
  apply qs_ext. intros k Hk. apply zrange_In in Hk. apply H; auto.
Qed.

(** Every point of the grid is the local point of some process. *)
Lemma all_points : forall procs sizes decs v, validDec procs sizes decs -> sizes <> [] ->
  (In v (boxPoints (repeat 0 (length sizes)) sizes) <->
   exists r k, 0 <= r < zprod procs /\ 0 <= k < numLocal (localPart procs sizes decs r) /\
     v = vadd (lgLower (localPart procs sizes decs r)) (getVectorIndex (lgLocalSizes (localPart procs sizes decs r)) k)).
Proof.
  intros procs sizes decs v V HN. split.
  - intros Hv. apply (Permutation_in _ (Permutation_sym (tiles _ _ _ V))) in Hv. apply in_flat_map in Hv as (r & Hr & Hv).
    apply zrange_In in Hr. pose proof (localPart_wf procs sizes decs r V Hr) as HW.
    apply (Permutation_in _ (Permutation_sym (local_points (localPart procs sizes decs r) HN HW))) in Hv.
    apply in_map_iff in Hv as (k & E & Hk). apply zrange_In in Hk. exists r, k. auto.
  - intros (r & k & Hr & Hk & ->). apply (Permutation_in _ (tiles _ _ _ V)). apply in_flat_map. exists r. split; [now apply zrange_In|].
    pose proof (localPart_wf procs sizes decs r V Hr) as HW.
    apply (Permutation_in _ (local_points (localPart procs sizes decs r) HN HW)). apply in_map_iff. exists k. split; auto. now apply zrange_In.
Qed.
