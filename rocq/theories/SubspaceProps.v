(** C06, C56: hierarchical subspaces on the processes. *)
From Verif Require Import Base TensorModel TensorProofs PartitionModel PartitionProofs DecompModel DecompProofs
  Level1dModel Level1dProofs LevelSetsModel LevelSetsProofs SubspaceModel SubspaceProofs.

(** C06: over the down set of the grid's level, the subspaces list every local point exactly once. *)
Theorem C06_subspaces_tile : forall g, wfGrid g ->
  Permutation (flat_map (fgPointsOfSubspace g) (getDownSet (gLevel g))) (zrange 0 (zprod (gSizes g))).
Proof. exact subspaces_tile. Qed.

(** C06: a point is listed under the vector of its 1d levels (boundary points counted as level 1). *)
Theorem C06_listed_under_its_level : forall g l k, wfGrid g -> Forall2 (fun x y => 1 <= x <= y) l (gLevel g) ->
  (In k (fgPointsOfSubspace g l) <->
   0 <= k < zprod (gSizes g) /\
   forall d, (d < length (gLevel g))%nat ->
     Z.max 1 (getLevel (nth d (gBnd g) 0) (nth d (gLevel g) 0)
                       (nth d (gLower g) 0 + nth d (getVectorIndex (gSizes g) k) 0)) = nth d l 0).
Proof.
  intros g l k W F. rewrite fgPoints_In by auto. split.
  - intros [v [B [P ->]]]. pose proof (lin_range _ _ B) as R. split; auto. intros d Hd.
    rewrite getVectorIndex_unlin by (auto; eapply inBox_pos; eauto). rewrite unlin_lin by auto.
    rewrite <- P. now rewrite pointLevel_nth.
  - intros [Hk HL]. pose proof (gSizes_nonneg_pos g k W Hk) as PE.
    rewrite getVectorIndex_unlin in HL by auto.
    exists (unlin (gSizes g) k). split; [now apply unlin_inBox|]. split; [|symmetry; now apply lin_unlin].
    apply Forall2_length in F as LF. apply nth_ext_Z; rewrite pointLevel_length; auto.
    intros i Hi. rewrite pointLevel_nth by auto. now apply HL.
Qed.

(** C06: subspaces finer than the grid have no points. *)
Theorem C06_finer_subspaces_empty : forall g l d, length l = length (gLevel g) ->
  (d < length (gLevel g))%nat -> nth d (gLevel g) 0 < nth d l 0 -> fgPointsOfSubspace g l = [].
Proof.
  intros g l d HL Hd Hlt. unfold fgPointsOfSubspace. destruct (anyGreater l (gLevel g)) eqn:E; auto.
  apply anyGreater_false in E; auto. apply (Forall2_nth_iff _ _ _ 0 0) in E as [_ E].
  specialize (E d ltac:(lia)). simpl in E. lia.
Qed.

Lemma gridOfRank_wf : forall procs levels bs decs r,
  shapeDec procs (globalSizes levels bs) decs -> length bs = length levels ->
  (forall i, (i < length levels)%nat -> 1 <= nth i levels 0 /\ 0 <= nth i bs 0 <= 2 /\
     forall c, 0 <= c < Z.of_nat (length (nth i decs [])) ->
       0 <= lo1 (nth i decs []) c <= up1 (nth i decs []) (2 ^ nth i levels 0 + nth i bs 0 - 1) c /\
       up1 (nth i decs []) (2 ^ nth i levels 0 + nth i bs 0 - 1) c <= 2 ^ nth i levels 0 + nth i bs 0 - 1) ->
  0 <= r < zprod procs -> wfGrid (gridOfRank procs levels bs decs r).
Proof.
  intros procs levels bs decs r S LB H Hr. pose proof S as (S1 & S2 & S3).
  assert (LG : length (globalSizes levels bs) = length levels) by (unfold globalSizes; apply map2_length; lia).
  unfold wfGrid, gridOfRank; cbn [gBnd gLevel gLower gUpper].
  rewrite (lowerBounds_length procs (globalSizes levels bs)), upperBounds_length by auto.
  split; [lia|]. split; [lia|]. split; [lia|]. intros i Hi.
  destruct (H i Hi) as (A & B & C). destruct (S3 i ltac:(lia)) as [E _].
  pose proof (coordsOfRank_inBox procs r (shapeDec_pos _ _ _ S) Hr) as IB. apply inBox_nth in IB as [_ IB].
  specialize (IB i ltac:(lia)). rewrite E in IB. specialize (C _ IB).
  assert (EG : nth i (globalSizes levels bs) 0 = 2 ^ nth i levels 0 + nth i bs 0 - 1).
  { unfold globalSizes. rewrite (map2_nth _ _ _ _ _ _ i 0 0) by lia. unfold numDofNodal1.
    destruct (Z.gtb_spec (nth i levels 0) 0); [auto|lia]. }
  rewrite (lowerBounds_nth procs (globalSizes levels bs)), upperBounds_nth by (auto; lia). rewrite EG. lia.
Qed.

(** C06 on the processes of a whole distributed grid: valid decompositions give well-formed parts. *)
Theorem C06_all_processes : forall procs levels bs decs r,
  validDec procs (globalSizes levels bs) decs -> length bs = length levels ->
  Forall (fun l => 1 <= l) levels -> Forall (fun b => 0 <= b <= 2) bs -> 0 <= r < zprod procs ->
  let g := gridOfRank procs levels bs decs r in
  Permutation (flat_map (fgPointsOfSubspace g) (getDownSet levels)) (zrange 0 (zprod (gSizes g))).
Proof.
  intros procs levels bs decs r V LB PL PB Hr g. pose proof V as (V1 & V2 & V3).
  assert (LG : length (globalSizes levels bs) = length levels) by (unfold globalSizes; apply map2_length; lia).
  apply subspaces_tile. apply gridOfRank_wf; auto. intros i Hi.
  rewrite Forall_forall in PL, PB. pose proof (PL (nth i levels 0) ltac:(apply nth_In; lia)) as A.
  pose proof (PB (nth i bs 0) ltac:(apply nth_In; lia)) as B. split; auto. split; auto.
  intros c Hc. destruct (V3 i ltac:(lia)) as [E V4].
  assert (EG : nth i (globalSizes levels bs) 0 = 2 ^ nth i levels 0 + nth i bs 0 - 1).
  { unfold globalSizes; rewrite (map2_nth _ _ _ _ _ _ i 0 0) by lia. unfold numDofNodal1.
    destruct (Z.gtb_spec (nth i levels 0) 0); [auto|lia]. }
  rewrite EG in V4. pose proof (validDec1_range _ _ _ V4 Hc). lia.
Qed.

(** C56: two component grids whose decompositions are downsampled from the same reference decomposition list the points
    of a common subspace in the same geometric order on every process; so position k of the subspace data means the
    same coordinate for all component grids. [refPos] is the coordinate in units of the reference mesh width. *)
Theorem C56_same_point_order : forall procs R La Lb bs decs r l,
  shapeDec procs (globalSizes R bs) decs -> length R = length decs -> length bs = length decs ->
  length La = length decs -> length Lb = length decs ->
  (forall i, (i < length decs)%nat ->
     nth i La 0 <= nth i R 0 /\ nth i Lb 0 <= nth i R 0 /\ 0 <= nth i bs 0 <= 2 /\
     (forall j k, (j <= k < length (nth i decs []))%nat -> nth j (nth i decs []) 0 <= nth k (nth i decs []) 0) /\
     forall j, (j < length (nth i decs []))%nat ->
       0 <= nth j (nth i decs []) 0 <= 2 ^ nth i R 0 + nth i bs 0 - 1) ->
  Forall2 (fun x y => 1 <= x <= y) l La -> Forall2 (fun x y => 1 <= x <= y) l Lb ->
  0 <= r < zprod procs ->
  let ga := gridOfRank procs La bs (downsampleDecomposition decs R La bs) r in
  let gb := gridOfRank procs Lb bs (downsampleDecomposition decs R Lb bs) r in
  map (fun k => refPos R ga (getVectorIndex (gSizes ga) k)) (fgPointsOfSubspace ga l)
  = map (fun k => refPos R gb (getVectorIndex (gSizes gb) k)) (fgPointsOfSubspace gb l).
Proof.
  intros procs R La Lb bs decs r l S LR LB LLa LLb H Fa Fb Hr ga gb.
  pose proof S as (S1 & S2 & S3).
  assert (KEY : forall L, length L = length decs -> Forall2 (fun x y => 1 <= x <= y) l L ->
     (forall i, (i < length decs)%nat -> nth i L 0 <= nth i R 0) ->
     let g := gridOfRank procs L bs (downsampleDecomposition decs R L bs) r in
     wfGrid g /\
     (forall i, (i < length decs)%nat ->
        let d' := map (downsample1 (nth i R 0) (nth i L 0) (nth i bs 0)) (nth i decs []) in
        let c := nth i (coordsOfRank procs r) 0 in
        0 <= c < Z.of_nat (length (nth i decs [])) /\
        nth i (gLower g) 0 = lo1 d' c /\ nth i (gUpper g) 0 = up1 d' (2 ^ nth i L 0 + nth i bs 0 - 1) c)).
  { intros L LL F HLR g. pose proof (Forall2_length _ _ _ _ _ F) as Ll.
    pose proof (proj1 (Forall2_nth_iff _ _ _ 0 0 _ _) F) as [_ FN]. cbv beta in FN.
    assert (LG : length (globalSizes L bs) = length L) by (unfold globalSizes; apply map2_length; lia).
    assert (S' : shapeDec procs (globalSizes L bs) (downsampleDecomposition decs R L bs)).
    { split; [|split]; rewrite downsample_length; auto; [lia|].
      intros i Hi. rewrite downsample_nth, map_length by (auto; lia). apply S3; auto. }
    assert (CC : forall i, (i < length decs)%nat ->
       0 <= nth i (coordsOfRank procs r) 0 < Z.of_nat (length (nth i decs []))).
    { intros i Hi. pose proof (coordsOfRank_inBox procs r (shapeDec_pos _ _ _ S) Hr) as IB.
      apply inBox_nth in IB as [_ IB]. specialize (IB i ltac:(lia)).
      destruct (S3 i ltac:(lia)) as [E3 _]. now rewrite E3 in IB. }
    split.
    - apply gridOfRank_wf; auto; [lia|]. intros i Hi. destruct (H i ltac:(lia)) as (_ & _ & B & M & C).
      specialize (HLR i ltac:(lia)). specialize (FN i ltac:(lia)).
      split; [lia|]. split; auto. rewrite downsample_nth by lia. intros c Hc. rewrite map_length in Hc.
      pose proof (downsample_bounds (nth i R 0) (nth i L 0) (nth i bs 0) (nth i decs []) c
                    ltac:(lia) B Hc C) as D. cbv zeta in D.
      set (dec' := map _ (nth i decs [])) in *. split; [|lia]. split; [lia|].
      unfold lo1, up1 in *. assert (LD : length dec' = length (nth i decs [])) by apply map_length.
      assert (N : forall j, (j < length dec')%nat ->
         nth j dec' 0 = downsample1 (nth i R 0) (nth i L 0) (nth i bs 0) (nth j (nth i decs []) 0)).
      { intros j Hj. unfold dec'. rewrite (nth_indep _ 0 (downsample1 (nth i R 0) (nth i L 0) (nth i bs 0) 0)) by auto.
        now rewrite map_nth. }
      assert (MONO : forall a b, a <= b -> downsample1 (nth i R 0) (nth i L 0) (nth i bs 0) a
                                <= downsample1 (nth i R 0) (nth i L 0) (nth i bs 0) b).
      { intros a b Hab. unfold downsample1. pose proof (pow2_pos (nth i R 0 - nth i L 0) ltac:(lia)) as P2.
        destruct (nth i bs 0 >? 0).
        - apply cdiv_le; auto. pose proof (proj1 (cdiv_le b _ _ P2) (Z.le_refl _)). lia.
        - apply Z.max_le_compat_l. apply cdiv_le; auto.
          pose proof (proj1 (cdiv_le (b - (2 ^ (nth i R 0 - nth i L 0) - 1)) _ _ P2) (Z.le_refl _)). lia. }
      destruct (Z.ltb_spec c (Z.of_nat (length dec') - 1)).
      + rewrite !N by lia. apply MONO. apply M. lia.
      + destruct (downsample_bounds (nth i R 0) (nth i L 0) (nth i bs 0) [nth (Z.to_nat c) (nth i decs []) 0; nth (Z.to_nat c) (nth i decs []) 0] 0
                    ltac:(lia) B ltac:(simpl; lia)) as [_ D2].
        { intros j Hj. specialize (C (Z.to_nat c) ltac:(lia)). destruct j as [|[|j]]; simpl in *; auto; lia. }
        rewrite N by lia. exact D2.
    - intros i Hi d' c. split; [apply CC; auto|]. unfold g, gridOfRank; cbn [gLower gUpper].
      rewrite (lowerBounds_nth procs (globalSizes L bs)), upperBounds_nth by (auto; lia).
      rewrite downsample_nth by lia. fold d'. split; auto. fold c.
      unfold globalSizes. rewrite (map2_nth _ _ _ _ _ _ i 0 0) by lia. unfold numDofNodal1.
      specialize (FN i ltac:(lia)). destruct (Z.gtb_spec (nth i L 0) 0); [auto|lia]. }
  destruct (KEY La LLa Fa) as [Wa Ka]; [intros i Hi; apply H; auto|].
  destruct (KEY Lb LLb Fb) as [Wb Kb]; [intros i Hi; apply H; auto|]. clear KEY. fold ga in Wa, Ka. fold gb in Wb, Kb.
  assert (EV : forall g, wfGrid g -> Forall2 (fun x y => 1 <= x <= y) l (gLevel g) ->
    map (fun k => refPos R g (getVectorIndex (gSizes g) k)) (fgPointsOfSubspace g l)
    = map (fun k => refPos R g (unlin (gSizes g) k)) (fgPointsOfSubspace g l)).
  { intros g W F. apply map_ext_in. intros k Hk. apply fgPoints_In in Hk as [v [B [_ ->]]]; auto.
    rewrite getVectorIndex_unlin; auto; [eapply inBox_pos; eauto|now apply lin_range]. }
  rewrite EV by auto. rewrite (EV gb) by auto.
  rewrite !fgPoints_refPos by auto. f_equal. f_equal. f_equal.
  assert (NTH : forall g, wfGrid g -> length (gLevel g) = length decs -> length l = length decs ->
    forall i, (i < length decs)%nat ->
    nth i (map2 (fun (f : Z -> Z) i => map f i) (refFuns R g)
             (oneDIndices (gLevel g) (gBnd g) (gLower g) (gUpper g) l)) []
    = map (refPos1 (nth i R 0) (nth i (gLevel g) 0) (nth i (gBnd g) 0) (nth i (gLower g) 0))
          (indices1dLocal (nth i (gBnd g) 0) (nth i (gLevel g) 0) (nth i (gLower g) 0) (nth i (gUpper g) 0) (nth i l 0))).
  { intros g W LG Ll i Hi. pose proof W as (W1 & W2 & W3 & _).
    rewrite (map2_nth _ _ _ _ _ _ i (refPos1 (nth 0 R 0) (nth 0 (gLevel g) 0) (nth 0 (gBnd g) 0) (nth 0 (gLower g) 0)) []).
    - rewrite oneDIndices_nth by lia. f_equal. unfold refFuns.
      rewrite (map_nth (fun i => refPos1 (nth i R 0) (nth i (gLevel g) 0) (nth i (gBnd g) 0) (nth i (gLower g) 0)) _ 0%nat).
      rewrite seq_nth by lia. reflexivity.
    - unfold refFuns. rewrite map_length, seq_length. lia.
    - rewrite oneDIndices_length; lia. }
  pose proof (Forall2_length _ _ _ _ _ Fa) as Lla.
  assert (LEN : forall g, wfGrid g -> length (gLevel g) = length decs -> length l = length decs ->
     length (map2 (fun (f : Z -> Z) i => map f i) (refFuns R g)
             (oneDIndices (gLevel g) (gBnd g) (gLower g) (gUpper g) l)) = length decs).
  { intros g W LG Ll. pose proof W as (W1 & W2 & W3 & _).
    rewrite map2_length; unfold refFuns; rewrite map_length, seq_length; auto. rewrite oneDIndices_length; lia. }
  apply (nth_ext _ _ [] []); rewrite !LEN by (auto; cbn; lia); auto.
  intros i Hi. rewrite !NTH by (auto; cbn; lia).
  destruct (Ka i Hi) as (Ca & Ea1 & Ea2). destruct (Kb i Hi) as (Cb & Eb1 & Eb2).
  rewrite Ea1, Ea2, Eb1, Eb2. destruct (H i Hi) as (A1 & A2 & B & M & C).
  change (nth i (gBnd ga) 0) with (nth i bs 0). change (nth i (gBnd gb) 0) with (nth i bs 0).
  change (nth i (gLevel ga) 0) with (nth i La 0). change (nth i (gLevel gb) 0) with (nth i Lb 0).
  pose proof (proj1 (Forall2_nth_iff _ _ _ 0 0 _ _) Fa) as [_ FNa]. cbv beta in FNa. specialize (FNa i ltac:(lia)).
  pose proof (proj1 (Forall2_nth_iff _ _ _ 0 0 _ _) Fb) as [_ FNb]. cbv beta in FNb. specialize (FNb i ltac:(lia)).
  apply indices_refPos_eq; auto; lia.
Qed.

(** Witnesses: a 2d grid of level (2,3) on 2 x 1 processes, mixed boundary. *)
Definition exGrid := gridOfRank [2; 1] [2; 3] [2; 0] [[0; 3]; [0]] 1.
Example C06_ex_grid : gLower exGrid = [3; 0] /\ gUpper exGrid = [5; 7].
Proof. vm_compute. auto. Qed.
Example C06_ex_wf : wfGrid exGrid.
Proof.
  unfold wfGrid. change (gLevel exGrid) with [2; 3]. change (gBnd exGrid) with [2; 0].
  destruct C06_ex_grid as [-> ->]. repeat split; auto; simpl; intros;
  destruct i as [|[|i]]; simpl in *; lia.
Qed.
Example C06_ex_points : fgPointsOfSubspace exGrid [1; 2] = [3; 11] /\ fgPointsOfSubspace exGrid [2; 3] = [0; 4; 8; 12].
Proof. vm_compute. auto. Qed.
Example C56_ex : (* levels (3,3) and (2,4) under reference (4,4), decomposition [0;9] x [0;4] *)
  let ga := gridOfRank [2; 2] [3; 3] [2; 1] (downsampleDecomposition [[0; 9]; [0; 4]] [4; 4] [3; 3] [2; 1]) 3 in
  let gb := gridOfRank [2; 2] [2; 4] [2; 1] (downsampleDecomposition [[0; 9]; [0; 4]] [4; 4] [2; 4] [2; 1]) 3 in
  fgPointsOfSubspace ga [2; 2] = [1; 17] /\ fgPointsOfSubspace gb [2; 2] = [0; 16] /\
  map (fun k => refPos [4; 4] ga (getVectorIndex (gSizes ga) k)) (fgPointsOfSubspace ga [2; 2]) = [[12; 4]; [12; 12]].
Proof. vm_compute. auto. Qed.

Print Assumptions C06_subspaces_tile.
Print Assumptions C06_listed_under_its_level.
Print Assumptions C06_finer_subspaces_empty.
Print Assumptions C06_all_processes.
Print Assumptions C56_same_point_order.
