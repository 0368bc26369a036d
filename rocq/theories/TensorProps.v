(** C01, C55: linear and multi-dimensional indices. *)
From Verif Require Import Base TensorModel TensorProofs.

(** Specification vocabulary: a multi-index lies in a box of given extents. *)
Definition validIndex (ext v : list Z) : Prop := Forall2 (fun e x => 0 <= x < e) ext v.

(** Number of points of the sub-box spanned by the first [j] dimensions. *)
Definition pointsBelow (ext : list Z) (j : nat) : Z := zprod (firstn j ext).

(** multi-index -> linear -> multi-index *)
Theorem C01_vector_roundtrip : forall ext v, validIndex ext v ->
  getVectorIndex ext (sequentialIndex ext v) = v.
Proof.
  intros ext v H. rewrite sequentialIndex_lin, getVectorIndex_unlin.
  - apply unlin_lin; auto.
  - eapply inBox_pos; eauto.
  - apply lin_range; auto.
Qed.

(** linear -> multi-index -> linear, and the multi-index is valid *)
Theorem C01_linear_roundtrip : forall ext k, ext <> [] -> Forall (fun e => 0 < e) ext ->
  0 <= k < tensorSize ext ->
  sequentialIndex ext (getVectorIndex ext k) = k /\ validIndex ext (getVectorIndex ext k).
Proof.
  intros ext k Hn Hp Hk. rewrite tensorSize_prod in Hk by auto.
  rewrite sequentialIndex_lin, getVectorIndex_unlin by auto. split.
  - apply lin_unlin; auto.
  - apply unlin_inBox; auto.
Qed.

(** linear indices of valid multi-indices are in range *)
Theorem C01_linear_range : forall ext v, ext <> [] -> validIndex ext v ->
  0 <= sequentialIndex ext v < tensorSize ext.
Proof.
  intros ext v Hn H. rewrite tensorSize_prod by auto. rewrite sequentialIndex_lin. apply lin_range; auto.
Qed.

(** The order is column-major (first dimension fastest): moving one step in dimension [j] moves the linear index by
    the number of points of the first [j] dimensions. *)
Theorem C01_column_major : forall ext v, length v = length ext ->
  sequentialIndex ext v
  = zsum (map (fun j => nth j v 0 * pointsBelow ext j) (seq 0 (length ext))).
Proof.
  intros ext v H. rewrite sequentialIndex_lin. unfold pointsBelow.
  revert v H. induction ext as [|e ext IH]; intros [|x v] H; simpl in H; try lia; [reflexivity|].
  cbn [length seq map nth firstn lin zsum zprod fold_right]. rewrite IH by lia.
  rewrite <- seq_shift, map_map. cbn [nth firstn].
  assert (G : forall l, fold_right Z.add 0 (map (fun j => nth j v 0 * zprod (e :: firstn j ext)) l)
    = e * zsum (map (fun j => nth j v 0 * zprod (firstn j ext)) l)).
  { unfold zsum. induction l as [|a l IHl]; cbn [map fold_right]; [ring|].
    rewrite IHl. unfold zprod. cbn [fold_right]. ring. }
  rewrite G. ring.
Qed.

(** The two ways the code splits a linear index agree. *)
Theorem C01_both_conversions_agree : forall ext k, ext <> [] -> Forall (fun e => 0 < e) ext ->
  0 <= k < tensorSize ext -> remDivChain ext k = getVectorIndex ext k.
Proof.
  intros ext k Hn Hp Hk. rewrite tensorSize_prod in Hk by auto.
  rewrite getVectorIndex_unlin, remDivChain_unlin by (auto; lia). reflexivity.
Qed.

(** Converting a local linear index to a global linear index is the same as shifting the local multi-index by the lower
    bounds of the process; the result is a valid global index owned by the process. *)
Theorem C01_local_to_global : forall g k, lgGlobal g <> [] -> wfLocal g -> 0 <= k < tensorSize (lgLocalSizes g) ->
  getVectorIndex (lgGlobal g) (globalOfLocalLinear g k)
    = vadd (lgLower g) (getVectorIndex (lgLocalSizes g) k)
  /\ 0 <= globalOfLocalLinear g k < tensorSize (lgGlobal g)
  /\ isGlobalIndexHere g (getVectorIndex (lgGlobal g) (globalOfLocalLinear g k)) = true
  /\ localVectorOfGlobal g (getVectorIndex (lgGlobal g) (globalOfLocalLinear g k))
     = Some (getVectorIndex (lgLocalSizes g) k).
Proof.
  intros g k Hn Hw Hk. pose proof Hw as (H1 & H2 & H3 & H4).
  assert (Hs : lgLocalSizes g <> []).
  { unfold lgLocalSizes. intro E. apply (f_equal (@length Z)) in E.
    rewrite vsub_length in E by lia. simpl in E. destruct (lgGlobal g); simpl in *; [congruence|lia]. }
  rewrite tensorSize_prod in * by auto.
  destruct (globalOfLocalLinear_spec g k Hw Hk) as [A B]. rewrite A.
  destruct (local_in_global g (getVectorIndex (lgLocalSizes g) k) Hw) as (C & D & E).
  { rewrite getVectorIndex_unlin by (auto; apply wfLocal_sizes_pos; auto).
    apply unlin_inBox. apply wfLocal_sizes_pos; auto. }
  repeat split; auto; try lia. unfold localVectorOfGlobal. rewrite D, E. reflexivity.
Qed.

(** Distinct local points have distinct global linear indices. *)
Theorem C01_local_to_global_injective : forall g k k', lgGlobal g <> [] -> wfLocal g ->
  0 <= k < tensorSize (lgLocalSizes g) -> 0 <= k' < tensorSize (lgLocalSizes g) ->
  globalOfLocalLinear g k = globalOfLocalLinear g k' -> k = k'.
Proof.
  intros g k k' Hn Hw Hk Hk' E.
  assert (Hs : lgLocalSizes g <> []).
  { destruct (lgLocalSizes g); simpl in *; [lia|discriminate]. }
  destruct (C01_local_to_global g k Hn Hw Hk) as (_ & _ & _ & A).
  destruct (C01_local_to_global g k' Hn Hw Hk') as (_ & _ & _ & B).
  rewrite E in A. rewrite A in B. injection B as B.
  apply (f_equal (sequentialIndex (lgLocalSizes g))) in B.
  pose proof (wfLocal_sizes_pos g Hw) as Hp.
  rewrite !(fun x H => proj1 (C01_linear_roundtrip (lgLocalSizes g) x Hs Hp H)) in B by auto. auto.
Qed.

(** Concrete instances of the hypotheses. *)
Example C01_ex_valid : validIndex [5; 3; 7] [4; 0; 6] /\ sequentialIndex [5; 3; 7] [4; 0; 6] = 94
  /\ getVectorIndex [5; 3; 7] 94 = [4; 0; 6].
Proof. repeat split; try (repeat constructor; lia); vm_compute; reflexivity. Qed.

Example C01_ex_local : let g := mkLocalGrid [5; 9] [2; 4] [5; 9] in
  wfLocal g /\ tensorSize (lgLocalSizes g) = 15 /\ globalOfLocalLinear g 7 = 33
  /\ getVectorIndex [5; 9] 33 = [3; 6].
Proof. repeat split; try (repeat constructor; simpl; lia); vm_compute; reflexivity. Qed.

(** C55: the inverse conversion offered by the class (global linear index to local linear index). *)
(** It is correct on a process whose box is the whole grid... *)
Theorem C55_global_to_local_whole_grid : forall g k, lgGlobal g <> [] -> wfLocal g ->
  lgUpper g = lgGlobal g -> Forall (fun l => l = 0) (lgLower g) -> 0 <= k < tensorSize (lgGlobal g) ->
  localOfGlobalLinear g k = k.
Proof.
  intros [gl lo up] k Hn Hw Hu Hl Hk. simpl in *. subst up.
  pose proof (wfLocal_global_pos _ Hw) as Hp. simpl in Hp.
  destruct Hw as (H1 & H2 & H3 & H4). simpl in *.
  assert (Hs : vsub gl lo = gl).
  { clear - H1 Hl. revert gl H1. induction Hl; intros [|g gl] H1; simpl in *; try lia; auto.
    f_equal; [lia|]. apply IHHl. lia. }
  assert (Hz : lin gl lo = 0).
  { clear - H1 Hl. revert gl H1. induction Hl; intros [|g gl] H1; simpl in *; try lia; auto.
    rewrite IHHl by lia. lia. }
  rewrite tensorSize_prod in Hk by auto.
  unfold localOfGlobalLinear, isGlobalIndexHere, firstGlobalIndex, lgLocalSizes; simpl.
  rewrite Hs, !sequentialIndex_lin, Hz.
  rewrite getVectorIndex_unlin by auto.
  pose proof (unlin_inBox gl k Hp) as Hb.
  assert (E : vgeb (unlin gl k) lo && vltb (unlin gl k) gl = true).
  { apply andb_true_iff. unfold vgeb, vltb. rewrite !vall_spec.
    - split.
      + clear - Hb Hl H1. revert lo Hl H1. induction Hb; intros [|a lo] Hl H1; simpl in *; try lia; constructor.
        * inv Hl. lia.
        * inv Hl. apply IHHb; auto. 
      + clear - Hb. induction Hb; constructor; auto. lia.
    - apply (inBox_length _ _ Hb).
    - rewrite (inBox_length _ _ Hb). lia. }
  rewrite E, lin_unlin by auto. lia.
Qed.

(** ... but not in general: on the process owning the upper corner of a 4x4 grid split 2x2, the global index of its
    first point is mapped to local index 0 - 4 = a negative number instead of 0. *)
Theorem C55_global_to_local_refuted : exists g k, lgGlobal g <> [] /\ wfLocal g /\
  0 <= k < tensorSize (lgLocalSizes g) /\
  localOfGlobalLinear g (globalOfLocalLinear g k) <> k.
Proof.
  exists (mkLocalGrid [4; 4] [2; 2] [4; 4]), 0. split; [discriminate|]. split.
  - repeat split; repeat constructor; simpl; lia.
  - split; vm_compute; [split; congruence|discriminate].
Qed.

Print Assumptions C01_vector_roundtrip.
Print Assumptions C01_linear_roundtrip.
Print Assumptions C01_linear_range.
Print Assumptions C01_column_major.
Print Assumptions C01_both_conversions_agree.
Print Assumptions C01_local_to_global.
Print Assumptions C01_local_to_global_injective.
Print Assumptions C55_global_to_local_whole_grid.
Print Assumptions C55_global_to_local_refuted.
