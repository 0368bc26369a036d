(** Proofs about OutputModel.v. *)
From Verif Require Import Base TensorModel TensorProofs PartitionModel PartitionProofs DecompModel DecompProofs DofModel DofProofs Level1dModel
  Level1dProofs LevelSetsModel LevelSetsProofs SubspaceModel SubspaceProofs SubspaceProps CombiSchemeModel CombiSchemeProofs Hier1dModel Hier1dProofs HierMassProofs Hier1dProps
  DistHierModel DistHierProofs DistExchangeProofs DistPoleProofs HierNDModel HierNDProofs HierLinProofs HierNDProps
  SparseGridModel SparseGridProofs CombineModel SparseTransferProofs SparseGridProps ReduceModel ReduceProofs VoteProofs SubspaceReduceProofs
  CombiStepModel CombiStepProofs CombiInitProofs CombiStepProps
  SystemModel SystemProofs SystemHatProofs SystemProps SystemNodalProofs WideSystemModel WideSystemProofs MigrateModel MigrateProofs MigrateProps
  QcTools InterpModel InterpProofs InterpProps CombiInterpProofs CombiInterpProps HatRefineProofs CombiUnchangedProps
  FileModel PlotModel PlotProofs OutputModel.
From Coq Require Import QArith Qcanon Permutation.
Open Scope Z_scope.
Ltac Zify.zify_post_hook ::= idtac.

(** What is in a grid before the dehierarchization: the combined coefficients of [all] where the sparse grid has the subspace of the point and some task has
    it, and what was there before elsewhere. *)
Definition combinedOver (y : Setup) (all : list SysTask) (H : SysTask -> list Z -> Qc) (L : list Z) (old : list Z -> Qc) (w : list Z) : Qc :=
  let l := levelOf y L w in
  if in_dec (list_eq_dec Z.eq_dec) l (yLevels y)
  then if existsb (fun u => vleb l (sLevel u)) all
       then qsum (map (fun u => if vleb l (sLevel u) then sCoeff u * H u (sameIndex y L (sLevel u) w) else 0)%Qc all)
       else old w
  else old w.

Lemma combinedOver_zero : forall y all H L old w, old w = 0%Qc -> combinedOver y all H L old w = combinedOrZero y all H L w.
Proof.
  intros y all H L old w Z. unfold combinedOver, combinedOrZero. cbv zeta. destruct (in_dec _ _ _); auto. destruct (existsb _ _) eqn:E; auto. rewrite Z. symmetry.
  rewrite (qs_ext _ (fun _ => 0%Qc)); [apply qs_zero; auto|]. intros u Hu. destruct (vleb (levelOf y L w) (sLevel u)) eqn:V; auto.
  assert (existsb (fun u => vleb (levelOf y L w) (sLevel u)) all = true) by (apply existsb_exists; eauto). congruence.
Qed.
Lemma combinedOver_ext : forall y all all' (H H' : SysTask -> list Z -> Qc) old old' t, wfSetup y -> wfTask y t -> Forall (wfTask y) all ->
  Forall2 (fun u u' => sLevel u' = sLevel u /\ sCoeff u' = sCoeff u /\ forall w, isPoint y u w -> H' u' w = H u w) all all' ->
  forall w, isPoint y t w -> old' w = old w -> combinedOver y all' H' (sLevel t) old' w = combinedOver y all H (sLevel t) old w.
Proof.
  intros y all all' H H' old old' t HY HT HA F w Hw EO. pose proof (combinedOrZero_ext y all all' H H' t HY HT HA F w Hw) as E. unfold combinedOver, combinedOrZero in *. cbv zeta in *.
  destruct (in_dec _ _ _) as [I|I]; [|auto]. replace (existsb (fun u => vleb (levelOf y (sLevel t) w) (sLevel u)) all') with (existsb (fun u => vleb (levelOf y (sLevel t) w) (sLevel u)) all).
  - destruct (existsb _ _); auto.
  - clear - F. induction F as [|u u' l l' (A & _) F IH]; auto. cbn [existsb]. now rewrite IH, A.
Qed.

Section Fill.
Variables (y : Setup) (rest : list (list Z)) (tasks : list (list SysTask)).
Hypothesis HY : wfSetup y.
Hypothesis EL : yLevels y = repeat 1 (length (yRef y)) :: rest.
Hypothesis HT : Forall (wfTask y) (concat tasks).
Let cnt (r : Z) := cntOf (map (localTask y r) (concat tasks)).

Lemma fillOver_ok : forall all (ds : Z -> DSG) stale t, wfTask y t -> Permutation (map kind (concat tasks)) (map kind all) ->
  (forall r, 0 <= r < zprod (yProcs y) -> filledWith (length (yRef y)) rest (map (localTask y r) all) (ds r) /\ dSizes (ds r) = map (cnt r) (yLevels y)) ->
  exists t', fillOver y stale ds t = Some t' /\ sameKind t t' /\
    represents (taskCfg y (sLevel t)) (nodal y (sLevel t) (combinedOver y all (valueAt y) (sLevel t) (valueAt y t))) (sData t').
Proof.
  intros all ds stale t WT PM HD. pose proof HY as (_ & _ & _ & _ & _ & _ & HL & HP). pose proof (kinds_wf y _ _ PM HT) as WA. pose proof (proj1 (Forall_forall _ _) WA) as WA'.
  set (dim := length (yRef y)) in *. pose proof (C19_state_is_grid_function (taskCfg y (sLevel t)) (sData t) (taskCfg_wf y t HY WT)) as RO.
  assert (X : forall r, 0 <= r < zprod (yProcs y) -> exists v, extractChecked (yLevels y) (sThreads t r) (ds r) (cGrid (localTask y r t)) (sData t r) = Some v /\
    forall l j, containsL (localTask y r t) l -> (j < length (pointsOf (localTask y r t) l))%nat ->
      sData t r (nth j (pointsOf (localTask y r t) l) 0) = valueAt y t (pointIndex y r t l j) ->
      v (nth j (pointsOf (localTask y r t) l) 0) = combinedOver y all (valueAt y) (sLevel t) (valueAt y t) (pointIndex y r t l j)).
  { intros r Hr. destruct (HD r Hr) as ((R & W & V) & S). set (c := localTask y r t). pose proof (local_good y HY r Hr t WT) as G. fold c dim in G.
    rewrite EL in *. change (sThreads t r) with (cThreads c). rewrite (extractChecked_eq dim rest HL (cnt r) (cnt_local y tasks HY HT r Hr) (ds r) c (sData t r) R G).
    assert (SZ : forall i, 0 <= i < Z.of_nat (length (repeat 1 dim :: rest)) -> dataSize (ds r) i = cnt r (nth (Z.to_nat i) (repeat 1 dim :: rest) [])).
    { intros i Hi. unfold dataSize. rewrite S. rewrite (nth_indep _ 0 (cnt r [])) by (rewrite map_length; lia). now rewrite map_nth. }
    destruct (extract_spec dim rest HL true (ds r) c (sData t r) R G) as (v & E & A & B).
    - intros _ i Hi. rewrite W. now apply zrange_In.
    - intros i Hi C P _. rewrite SZ in P |- * by auto. cbv beta in *. unfold c. apply (cnt_points y tasks); auto.
    - exists v. split; auto. intros l j C Hj OLD. unfold combinedOver. cbv zeta. rewrite (pointIndex_level y HY r Hr t l j WT C Hj). rewrite EL.
      destruct (in_dec (list_eq_dec Z.eq_dec) l (repeat 1 dim :: rest)) as [I|I].
      2: { rewrite <- OLD. apply (B l); auto. now apply nth_In. }
      destruct (position_In _ _ I) as [PI PL]. set (i := position (repeat 1 dim :: rest) l) in *. cbv beta in PL.
      assert (HX : existsb (fun u => vleb l (sLevel u)) all = negb (cnt r l =? 0)).
      { destruct (existsb (fun u => vleb l (sLevel u)) all) eqn:EX; destruct (Z.eqb_spec (cnt r l) 0) as [Z0|Z0]; auto; exfalso.
        - apply existsb_exists in EX as (u & Hu & LE). destruct (kinds_In _ _ u PM Hu) as (u0 & Hu0 & [du ->]). cbn [withData sLevel] in LE. pose proof (proj1 (Forall_forall _ _) HT u0 Hu0) as WU.
          pose proof WU as (U1 & _). pose proof WT as (T1 & _). pose proof (containsL_length _ _ C) as LC. change (gLevel (cGrid c)) with (sLevel t) in LC.
          apply vleb_spec in LE; [|lia].
          assert (Cx : containsL (localTask y r u0) l).
          { unfold containsL in *. change (gLevel (cGrid (localTask y r u0))) with (sLevel u0). apply (Forall2_nth_iff _ _ _ 0 0) in C. apply (Forall2_nth_iff _ _ _ 0 0) in LE. apply (Forall2_nth_iff _ _ _ 0 0). destruct C as [_ C], LE as [LL LE]. split; auto. intros q Hq. specialize (C q Hq). specialize (LE q Hq). lia. }
          pose proof (cnt_held y tasks HY HT r u0 l Hr Hu0 Cx) as CH. fold (cnt r) in CH. change (Z.of_nat (length (pointsOf (localTask y r u0) l)) = cnt r l) in CH.
          pose proof (same_refPos y HY r Hr t u0 l WT WU C Cx) as EQ. apply (f_equal (@length _)) in EQ. rewrite !map_length in EQ. unfold c in Hj. lia.
        - unfold cnt, cntOf in Z0. destruct (find _ _) as [x|] eqn:FD; [|lia]. apply find_some in FD. destruct FD as [Hc X0]. destruct (in_dec _ _ _) as [X1|]; [|discriminate].
          apply downSet_contains in X1. apply in_map_iff in Hc. destruct Hc as (u & <- & Hu). destruct (kinds_In _ _ u (Permutation_sym PM) Hu) as (u0 & Hu0 & [du ->]).
          assert (existsb (fun u => vleb l (sLevel u)) all = true); [|congruence]. apply existsb_exists. exists u0. split; auto. unfold containsL in X1. change (gLevel (cGrid (localTask y r (withData u0 du)))) with (sLevel u0) in X1.
          apply vleb_spec; [exact (containsL_length (localTask y r u0) l X1)|]. eapply Forall2_imp2; [|exact X1]. cbv beta. intros; lia. }
      rewrite HX. destruct (Z.eqb_spec (cnt r l) 0) as [Z0|Z0]; cbn [negb].
      + rewrite <- OLD. rewrite (B l); auto; [now apply nth_In|right; right; fold i; rewrite SZ by auto; now rewrite PL].
      + transitivity (weightedSum (map (localTask y r) all) l (Z.of_nat j)).
        2: { unfold weightedSum. rewrite map_map. apply qsum_ext. intros u Hu. apply (contribution_eq y HY r Hr); auto. apply C19_state_is_grid_function. apply taskCfg_wf; auto. }
        pose proof (cnt_local y tasks HY HT r Hr l) as CL. fold (cnt r) in CL. change (0 <= cnt r l < 2 ^ 32) in CL. rewrite <- (Nat2Z.id j) at 1. rewrite <- PL at 1. rewrite <- PL in C, Hj |- *.
        assert (Hj' : 0 <= Z.of_nat j < dataSize (ds r) i). { rewrite SZ by auto. pose proof (cnt_points y tasks HY HT r t _ Hr WT C) as CP. fold (cnt r) in CP. unfold cnt. rewrite <- CP; [unfold c in Hj; lia|]. rewrite PL. fold (cnt r). change (0 < cnt r l). lia. }
        rewrite A; [|exact PI|exact C|rewrite W; now apply zrange_In|exact Hj']. apply V; auto. }
  unfold fillOver. destruct (mapO_total (fun r => extractChecked (yLevels y) (sThreads t r) (ds r) (cGrid (localTask y r t)) (sData t r)) (zrange 0 (zprod (yProcs y)))) as [vs E].
  { intros r Hr. apply zrange_In in Hr. destruct (X r Hr) as (v & -> & _). eauto. }
  rewrite E. set (t0 := withData t (fun r => nth (Z.to_nat r) vs zeroA)).
  assert (RP : represents (taskCfg y (sLevel t)) (combinedOver y all (valueAt y) (sLevel t) (valueAt y t)) (sData t0)).
  { intros r v Hr Hv. cbn [taskCfg hProcs] in Hr. destruct (X r Hr) as (w & Ew & Vw). pose proof (ranks_nth _ _ _ zeroA _ E Hr) as Er. cbv beta in Er. rewrite Ew in Er. injection Er as Er.
    cbn [t0 withData sData]. rewrite <- Er. pose proof (local_good y HY r Hr t WT) as G. pose proof (localSizes_pos _ (taskCfg_wf y t HY WT) r Hr) as PE.
    set (k := sequentialIndex (hLocalSizes (taskCfg y (sLevel t)) r) v).
    assert (EK : k = lin (hLocalSizes (taskCfg y (sLevel t)) r) v) by (unfold k; now apply sequentialIndex_lin).
    assert (Hk : 0 <= k < zprod (gSizes (cGrid (localTask y r t)))).
    { rewrite EK. change (gSizes (cGrid (localTask y r t))) with (hLocalSizes (taskCfg y (sLevel t)) r). now apply lin_range. }
    destruct (points_cover _ _ k G Hk) as (l & j & C & Hj & EJ).
    assert (PX : pointIndex y r t l j = vadd (hLower (taskCfg y (sLevel t)) r) v).
    { unfold pointIndex. rewrite EJ. f_equal. rewrite getVectorIndex_unlin by (auto; exact Hk). rewrite EK. now apply unlin_lin. }
    rewrite <- PX, <- EJ. apply (Vw l j C Hj). rewrite EJ, PX. exact (RO r v Hr Hv). }
  destruct (sweepTask_spec y true stale t0 _ HY WT RP) as (t' & E' & K & RP'). exists t'. split; [exact E'|]. split; [|exact RP']. apply (sameKind_trans t t0); [eexists; reflexivity|exact K].
Qed.
End Fill.
