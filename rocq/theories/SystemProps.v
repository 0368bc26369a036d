(** Properties of a combination of the whole system (all groups, all processes). *)
From Verif Require Import Base TensorModel TensorProofs TensorProps PartitionModel PartitionProofs DecompModel DecompProofs DofModel DofProofs Level1dModel
  Level1dProofs LevelSetsModel LevelSetsProofs LevelSetsProps SubspaceModel SubspaceProofs SubspaceProps CombiSchemeModel CombiSchemeProofs CombiSchemeProps Hier1dModel Hier1dProofs HierMassProofs Hier1dProps
  DistHierModel DistHierProofs DistExchangeProofs DistPoleProofs HierNDModel HierNDProofs HierLinProofs HierNDProps
  SparseGridModel SparseGridProofs CombineModel SparseTransferProofs SparseGridProps ReduceModel ReduceProofs VoteProofs SubspaceReduceProofs
  CombiStepModel CombiStepProofs CombiInitProofs CombiStepProps SystemModel SystemProofs SystemHatProofs.
From Coq Require Import QArith Qcanon.
Open Scope Z_scope.
Ltac Zify.zify_post_hook ::= idtac.

(** What is assumed of setup and tasks at the start. *)
Definition wfSystem (y : Setup) (v : CombinationVariant) (tasks : list (list SysTask)) : Prop :=
  wfSetup y /\ Forall (wfTask y) (concat tasks) /\
  forall r, 0 <= r < zprod (yProcs y) -> variantFits v (yLevels y) (map (map (localTask y r)) tasks).

(** Every rank uses communicators in some order that MPI allows, see [anyOrder]. *)
Definition allOrders (y : Setup) (S : System) (order : Z -> list (list nat)) : Prop :=
  forall r, 0 <= r < zprod (yProcs y) -> anyOrder (localGroups y S r) (order r).

Lemma sysReachable_inv : forall y v esz tasks S, wfSystem y v tasks -> sysReachable y v esz tasks S -> sysInv y v esz tasks S.
Proof.
  intros y v esz tasks S (HY & HT & HV) R. induction R as [S E|S tasks' R IH ST|S S' chunk order sH sD R IH HC HO E].
  - destruct (start_ok y v esz tasks HY HT HV) as (S0 & E0 & _ & I). congruence.
  - apply solve_ok; auto.
  - destruct (combine_ok y v esz tasks HY HT HV S chunk order sH sD IH HC HO) as (S0 & E0 & I & _). congruence.
Qed.

(** What one combination does to a task: level and coefficient stay, and the new values are, at every point of the grid,
    those with the combined hierarchical coefficients. *)
Definition combinedSys (y : Setup) (all : list SysTask) (t t' : SysTask) : Prop :=
  sLevel t' = sLevel t /\ sCoeff t' = sCoeff t /\
  forall w, isPoint y t w -> valueAt y t' w =
    nodal y (sLevel t) (combinedAt y all (fun u => surplus y (sLevel u) (valueAt y u)) t) w.

Theorem C72_start : forall y v esz tasks, wfSystem y v tasks ->
  exists S, startSystem y v esz tasks = Some S /\ sTasks S = tasks.
Proof. intros y v esz tasks (HY & HT & HV). destruct (start_ok y v esz tasks HY HT HV) as (S & E & ET & _). eauto. Qed.

Lemma combine_sys : forall y v esz tasks S chunk order staleH staleD, wfSystem y v tasks -> sysReachable y v esz tasks S ->
  0 < chunk < 2 ^ 31 -> allOrders y S order ->
  exists S', combineSystem y v esz chunk order staleH staleD S = Some S' /\ sysReachable y v esz tasks S' /\ sameTasks (sTasks S) (sTasks S') /\
    Forall2 (combinedSys y (concat (sTasks S))) (concat (sTasks S)) (concat (sTasks S')).
Proof.
  intros y v esz tasks S chunk order sH sD HW R HC HO. pose proof (sysReachable_inv _ _ _ _ _ HW R) as I. pose proof HW as (HY & HT & HV).
  destruct (combine_ok y v esz tasks HY HT HV S chunk order sH sD I HC HO) as (S' & E & I' & F). exists S'. split; auto.
  split; [eapply sys_combine; eauto|]. split; [eapply Forall2_imp2; [|exact F]; intros a b X; eapply Forall2_imp2; [|exact X]; cbn; tauto|].
  apply Forall2_concat' in F. assert (WT : Forall (wfTask y) (concat (sTasks S))) by (eapply sameTasks_wf; [apply I|auto]).
  assert (G : forall t t', In t (concat (sTasks S)) -> sameKind t t' /\
      represents (taskCfg y (sLevel t)) (nodal y (sLevel t) (combinedAt y (concat (sTasks S)) (fun u => surplus y (sLevel u) (valueAt y u)) t)) (sData t') -> combinedSys y (concat (sTasks S)) t t').
  { intros t t' Ht ((d & ->) & RP). rewrite Forall_forall in WT. specialize (WT t Ht). split; [reflexivity|]. split; [reflexivity|]. intros w Hw.
    unfold valueAt at 1. cbn [withData sLevel sData]. apply (represents_box _ _ _ (taskCfg_wf y t HY WT) RP). exact Hw. }
  revert F G. generalize (combinedAt y (concat (sTasks S)) (fun u => surplus y (sLevel u) (valueAt y u))). generalize (combinedSys y (concat (sTasks S))).
  generalize (concat (sTasks S)) (concat (sTasks S')). clear. induction 1 as [|t t' l l' A F IH]; intros G; constructor.
  - apply G; [now left|exact A].
  - apply IH. intros a b Ha. apply G. now right.
Qed.

Theorem C72_combination : forall y v esz tasks S chunk order staleH staleD, wfSystem y v tasks -> sysReachable y v esz tasks S ->
  0 < chunk < 2 ^ 31 -> allOrders y S order ->
  exists S', combineSystem y v esz chunk order staleH staleD S = Some S' /\
    Forall2 (combinedSys y (concat (sTasks S))) (concat (sTasks S)) (concat (sTasks S')).
Proof. intros y v esz tasks S chunk order sH sD HW R HC HO. destruct (combine_sys y v esz tasks S chunk order sH sD HW R HC HO) as (S' & E & _ & _ & F). eauto. Qed.

Lemma surplus_ext : forall y t de G G', wfSetup y -> wfTask y t -> (forall w, isPoint y t w -> G w = G' w) ->
  forall w, isPoint y t w -> opAll (taskCfg y (sLevel t)) de (dims y) G w = opAll (taskCfg y (sLevel t)) de (dims y) G' w.
Proof.
  intros y t de G G' HY HT H. apply (opAll_ext (taskCfg y (sLevel t)) de); [now apply taskCfg_wf| |exact H].
  intros k Hk. apply dims_In in Hk. destruct HT as (L & _). cbn [taskCfg hLevels]. lia.
Qed.

(** ** The result does not depend on the distribution *)

(** Two setups with the same grids, bases and sparse grid; the processes, the decomposition and the level it refers to may
    differ. *)
Definition sameProblem (y y' : Setup) : Prop :=
  length (yRef y') = length (yRef y) /\ yBnds y' = yBnds y /\ yDims y' = yDims y /\ yBases y' = yBases y /\ yLmin y' = yLmin y /\ yLevels y' = yLevels y.

(** The same task: same level, coefficient and values at all points. *)
Definition sameFunction (y y' : Setup) (t u : SysTask) : Prop :=
  sLevel u = sLevel t /\ sCoeff u = sCoeff t /\ forall w, isPoint y t w -> valueAt y' u w = valueAt y t w.

Lemma opAll_cfg : forall y y' de L ks G, sameProblem y y' -> opAll (taskCfg y' L) de ks G = opAll (taskCfg y L) de ks G.
Proof.
  intros y y' de L ks G (_ & E1 & E2 & E3 & E4 & _). revert G. induction ks as [|k ks IH]; intros G; auto. cbn [opAll fold_left].
  fold (opAll (taskCfg y' L) de ks). fold (opAll (taskCfg y L) de ks).
  assert (dimOp (taskCfg y' L) de k G = dimOp (taskCfg y L) de k G) as ->; [|apply IH].
  unfold dimOp, active, hSizes, effectiveLmin. cbn [taskCfg hLevels hBnds hDims hBases hLmin]. unfold effectiveLmin. now rewrite E1, E2, E3, E4.
Qed.

Lemma qsum_Permutation : forall l l', Permutation l l' -> qsum l = qsum l'.
Proof.
  induction 1; auto.
  - change (qsum (?a :: ?b)) with (a + qsum b)%Qc. congruence.
  - change (qsum (?a :: ?b)) with (a + qsum b)%Qc. change (qsum (?a :: ?b)) with (a + qsum b)%Qc. ring.
  - congruence.
Qed.

Lemma combinedAt_perm : forall y all all' H t w, Permutation all all' -> combinedAt y all H t w = combinedAt y all' H t w.
Proof. intros. unfold combinedAt. cbv zeta. destruct (in_dec _ _ _); auto. apply qsum_Permutation. now apply Permutation_map. Qed.

Lemma combinedAt_setup : forall y y' all H t w, sameProblem y y' -> combinedAt y' all H t w = combinedAt y all H t w.
Proof. intros y y' all H t w (E0 & E1 & _ & _ & _ & E5). unfold combinedAt, levelOf, sameIndex, dims. now rewrite E0, E1, E5. Qed.

Theorem C73_distribution_independent :
  forall y v esz tasks S chunk order staleH staleD S1 y' v' esz' tasks' S' chunk' order' staleH' staleD' S1' us,
  sameProblem y y' -> wfSystem y v tasks -> wfSystem y' v' tasks' ->
  sysReachable y v esz tasks S -> sysReachable y' v' esz' tasks' S' ->
  0 < chunk < 2 ^ 31 -> 0 < chunk' < 2 ^ 31 -> allOrders y S order -> allOrders y' S' order' ->
  Permutation us (concat (sTasks S')) -> Forall2 (sameFunction y y') (concat (sTasks S)) us ->
  combineSystem y v esz chunk order staleH staleD S = Some S1 ->
  combineSystem y' v' esz' chunk' order' staleH' staleD' S' = Some S1' ->
  forall i k t t1 u u1, nth_error (concat (sTasks S)) i = Some t -> nth_error (concat (sTasks S1)) i = Some t1 ->
    nth_error (concat (sTasks S')) k = Some u -> nth_error (concat (sTasks S1')) k = Some u1 ->
    sameFunction y y' t u -> sameFunction y y' t1 u1.
Proof.
  intros y v esz tasks S chunk order sH sD S1 y' v' esz' tasks' S' chunk' order' sH' sD' S1' us SP W W' R R' HC HC' HO HO' PM F E E'
    i k t t1 u u1 Nt Nt1 Nu Nu1 (SL & SC & SV).
  destruct (combine_sys y v esz tasks S chunk order sH sD W R HC HO) as (X & EX & _ & _ & FX). rewrite E in EX. injection EX as <-.
  destruct (combine_sys y' v' esz' tasks' S' chunk' order' sH' sD' W' R' HC' HO') as (X & EX & _ & _ & FX'). rewrite E' in EX. injection EX as <-.
  destruct (Forall2_nth_error _ _ _ _ _ FX Nt) as (t2 & N2 & (A1 & A2 & A3)). rewrite Nt1 in N2. injection N2 as <-.
  destruct (Forall2_nth_error _ _ _ _ _ FX' Nu) as (u2 & N2 & (B1 & B2 & B3)). rewrite Nu1 in N2. injection N2 as <-.
  pose proof (sysReachable_inv _ _ _ _ _ W R) as (I & _). pose proof (sysReachable_inv _ _ _ _ _ W' R') as (I' & _).
  pose proof W as (HY & HT & _). pose proof W' as (HY' & HT' & _).
  assert (WT : Forall (wfTask y) (concat (sTasks S))) by (eapply sameTasks_wf; eauto).
  assert (WTt : wfTask y t) by (rewrite Forall_forall in WT; apply WT; eapply nth_error_In; eauto).
  assert (PT : forall a b w, sLevel b = sLevel a -> isPoint y a w <-> isPoint y' b w).
  { intros a b w EL. unfold isPoint. destruct SP as (_ & E1 & _). now rewrite EL, E1. }
  split; [congruence|]. split; [congruence|]. intros w Hw. unfold isPoint in Hw. rewrite A1 in Hw. fold (isPoint y t w) in Hw.
  rewrite (A3 w Hw). rewrite (B3 w) by (apply (PT t); auto). unfold nodal at 1, dims at 1. destruct SP as (E0 & SP'). rewrite E0. fold (dims y).
  rewrite (opAll_cfg y y'); [|split; auto]. rewrite SL. fold (nodal y (sLevel t)).
  assert (BE : boxEq (hSizes (taskCfg y (sLevel t))) (combinedAt y' (concat (sTasks S')) (fun u0 => surplus y' (sLevel u0) (valueAt y' u0)) u)
                (combinedAt y (concat (sTasks S)) (fun u0 => surplus y (sLevel u0) (valueAt y u0)) t)).
  { intros x Hx. rewrite (combinedAt_setup y y') by (split; auto). rewrite <- (combinedAt_perm y us _ _ _ _ PM).
    assert (SU : forall a b, wfTask y a -> sameFunction y y' a b -> forall z, isPoint y a z -> surplus y' (sLevel b) (valueAt y' b) z = surplus y (sLevel a) (valueAt y a) z).
    { intros a b WA (L1 & L2 & L3) z Hz. unfold surplus at 1, dims at 1. rewrite E0. fold (dims y). rewrite (opAll_cfg y y') by (split; auto). rewrite L1. fold (surplus y (sLevel a)).
      unfold surplus. apply surplus_ext; auto. }
    apply combinedAt_ext; auto.
    2: { apply (SU t u); auto. split; auto. }
    clear - F SU WT. induction F as [|a b la lb SF F IH]; constructor; inversion WT; subst; auto. destruct SF as (L1 & L2 & L3). split; auto. split; auto. apply SU; auto. split; auto. }
  unfold nodal. apply surplus_ext; auto.
Qed.

(** ** Values that fit together are kept *)

(** The coefficients of the tasks whose grid contains subspace [l] sum to one. *)
Definition unitySys (y : Setup) (all : list SysTask) : Prop :=
  forall l t, In l (yLevels y) -> In t all -> Forall2 Z.le l (sLevel t) ->
    qsum (map (fun u => if vleb l (sLevel u) then sCoeff u else 0)%Qc all) = 1%Qc.

Definition sameValuesSys (y : Setup) (t t' : SysTask) : Prop :=
  sLevel t' = sLevel t /\ sCoeff t' = sCoeff t /\ forall w, isPoint y t w -> valueAt y t' w = valueAt y t w.

Lemma levelOf_le : forall y t w, wfSetup y -> wfTask y t -> isPoint y t w -> vleb (levelOf y (sLevel t) w) (sLevel t) = true.
Proof.
  intros y t w HY HT Hw. pose proof HT as (L1 & L2 & _). apply vleb_spec; [rewrite levelOf_length; lia|].
  apply (Forall2_nth_iff _ _ _ 0 0). split; [rewrite levelOf_length; lia|]. intros k Hk. rewrite levelOf_length in Hk. unfold levelOf. rewrite map_dims_nth by auto.
  apply (isPoint_nth y t w HY HT) in Hw. destruct Hw as [_ Hw]. specialize (Hw k Hk). specialize (L2 k Hk). pose proof HY as (_ & _ & _ & _ & HK & _). destruct (HK k Hk) as (_ & B & _).
  rewrite getLevel_lev. pose proof (lev_range (nth k (sLevel t) 0) (gridPos (nth k (yBnds y) 0) (nth k w 0)) ltac:(lia)) as R.
  pose proof (pow2_pos (nth k (sLevel t) 0) ltac:(lia)). unfold gridPos in *. destruct (Z.eqb_spec (nth k (yBnds y) 0) 0); lia.
Qed.

Lemma combinedAt_kept : forall y all H t w, wfSetup y -> Forall (wfTask y) all -> In t all -> isPoint y t w -> unitySys y all ->
  (forall u, In u all -> In (levelOf y (sLevel t) w) (yLevels y) -> vleb (levelOf y (sLevel t) w) (sLevel u) = true -> H u (sameIndex y (sLevel t) (sLevel u) w) = H t w) ->
  combinedAt y all H t w = H t w.
Proof.
  intros y all H t w HY HA Ht Hw HU HC. unfold combinedAt. cbv zeta. destruct (in_dec _ _ _) as [I|]; auto.
  assert (HT : wfTask y t) by (rewrite Forall_forall in HA; auto). pose proof (levelOf_le y t w HY HT Hw) as LE.
  assert (U : qsum (map (fun u => if vleb (levelOf y (sLevel t) w) (sLevel u) then sCoeff u else 0)%Qc all) = 1%Qc).
  { apply (HU _ t); auto. apply vleb_spec in LE; auto. rewrite levelOf_length. destruct HT; lia. }
  transitivity (qsum (map (fun u => if vleb (levelOf y (sLevel t) w) (sLevel u) then sCoeff u else 0)%Qc all) * H t w)%Qc; [|rewrite U; ring].
  assert (HC' : forall u, In u all -> vleb (levelOf y (sLevel t) w) (sLevel u) = true -> H u (sameIndex y (sLevel t) (sLevel u) w) = H t w) by (intros; auto).
  clear - HC'. induction all as [|u all IH]; [cbn; ring|]. cbn [map]. change (qsum (?a :: ?b)) with (a + qsum b)%Qc. rewrite IH by (intros; apply HC'; auto; now right).
  destruct (vleb _ (sLevel u)) eqn:V; [|ring]. rewrite HC' by (auto; now left). ring.
Qed.

(** The data can be recovered from the hierarchical coefficients whatever they are (see [suitable]). *)
Definition invertible (y : Setup) : Prop := forall k, (k < length (yRef y))%nat -> nth k (yDims y) false = true ->
  let f := nth k (yBases y) Hat in let b := nth k (yBnds y) 0 in
  (b = 0 -> f = Hat) /\ (b = 1 -> f = Hat \/ f = HatPeriodic \/ f = FullWeightingPeriodic \/ f = BiorthogonalPeriodic) /\
  (b = 2 -> f <> FullWeightingPeriodic /\ f <> BiorthogonalPeriodic).

Lemma invertible_suitable : forall y t G, wfTask y t -> invertible y -> suitableGrid (taskCfg y (sLevel t)) G.
Proof.
  intros y t G (L1 & _) HI k w Hk Ha _. cbn [taskCfg hLevels hBases hBnds] in *. unfold active in Ha. cbn [taskCfg hDims] in Ha. apply andb_true_iff in Ha.
  destruct (HI k ltac:(lia) (proj1 Ha)) as (A & B & C). split; auto. split; auto. intros E [X|X]; exfalso; destruct (C E); congruence.
Qed.

Lemma hat_invertible : forall y, wfSetup y -> hatSetup y -> invertible y.
Proof.
  intros y HY HH k Hk D. cbv zeta. pose proof HY as (_ & _ & _ & _ & HK & _). destruct (HK k Hk) as (_ & _ & _ & S). specialize (S D). specialize (HH k Hk D).
  split; [intros E; destruct S; [lia|auto]|]. split; [destruct HH; auto|]. intros _. destruct HH as [-> | ->]; split; discriminate.
Qed.

Lemma roundtrip_sys : forall y t de G w, wfSetup y -> wfTask y t -> invertible y -> isPoint y t w ->
  opAll (taskCfg y (sLevel t)) (negb de) (dims y) (opAll (taskCfg y (sLevel t)) de (dims y) G) w = G w.
Proof.
  intros y t de G w HY HT HI Hw. apply (opAll_roundtrip (taskCfg y (sLevel t)) de (dims y) G); auto.
  - now apply taskCfg_wf.
  - intros k Hk. apply dims_In in Hk. destruct HT as (L & _). cbn [taskCfg hLevels]. lia.
  - apply seq_NoDup.
  - now apply invertible_suitable.
Qed.

(** All tasks agree at the points that their grids have in common. *)
Definition fitTogether (y : Setup) (all : list SysTask) : Prop :=
  forall t u, In t all -> In u all -> agreeAll y t u (valueAt y t) (valueAt y u).

Lemma kept_sys : forall y v esz tasks S chunk order staleH staleD, wfSystem y v tasks -> invertible y -> sysReachable y v esz tasks S ->
  0 < chunk < 2 ^ 31 -> allOrders y S order -> unitySys y (concat (sTasks S)) ->
  (forall t u w, In t (concat (sTasks S)) -> In u (concat (sTasks S)) -> isPoint y t w -> In (levelOf y (sLevel t) w) (yLevels y) -> vleb (levelOf y (sLevel t) w) (sLevel u) = true ->
     surplus y (sLevel u) (valueAt y u) (sameIndex y (sLevel t) (sLevel u) w) = surplus y (sLevel t) (valueAt y t) w) ->
  exists S', combineSystem y v esz chunk order staleH staleD S = Some S' /\
    Forall2 (Forall2 (sameValuesSys y)) (sTasks S) (sTasks S').
Proof.
  intros y v esz tasks S chunk order sH sD W HI R HC HO HU HS. destruct (combine_sys y v esz tasks S chunk order sH sD W R HC HO) as (S' & E & R' & ST & F).
  exists S'. split; auto. pose proof W as (HY & HT & _). pose proof (sysReachable_inv _ _ _ _ _ W R) as (I & _).
  assert (WT : Forall (wfTask y) (concat (sTasks S))) by (eapply sameTasks_wf; eauto).
  assert (G : Forall2 (sameValuesSys y) (concat (sTasks S)) (concat (sTasks S'))).
  { assert (X : forall t t', In t (concat (sTasks S)) -> combinedSys y (concat (sTasks S)) t t' -> sameValuesSys y t t').
    { intros t t' Ht (A & B & C). split; auto. split; auto. intros w Hw. rewrite (C w Hw).
      assert (WTt : wfTask y t) by (rewrite Forall_forall in WT; auto).
      transitivity (nodal y (sLevel t) (surplus y (sLevel t) (valueAt y t)) w); [|now apply (roundtrip_sys y t false)].
      unfold nodal at 1. apply surplus_ext; auto. intros x Hx. apply (combinedAt_kept y (concat (sTasks S)) (fun u => surplus y (sLevel u) (valueAt y u))); auto. }
    revert F X. generalize (combinedSys y (concat (sTasks S))). generalize (concat (sTasks S)) (concat (sTasks S')). clear. induction 1 as [|t t' l l' A F IH]; intros X; constructor.
    - apply X; auto. now left.
    - apply IH. intros a b Ha. apply X. now right. }
  clear - ST G. revert G. induction ST as [|a b la lb H F IH]; intros G; constructor; cbn [concat] in G; apply Forall2_app_inv_l in G; destruct G as (x & z & G1 & G2 & EX).
  - assert (length x = length b) by (rewrite <- (Forall2_length _ _ _ _ _ G1); apply (Forall2_length _ _ _ _ _ H)).
    assert (x = b) as ->; auto. { apply (f_equal (firstn (length b))) in EX. rewrite !firstn_app in EX. replace (length b - length b)%nat with 0%nat in EX by lia. replace (length b - length x)%nat with 0%nat in EX by lia. cbn [firstn] in EX. rewrite !app_nil_r, firstn_all in EX. rewrite <- H0, firstn_all in EX. auto. }
  - apply IH. assert (length x = length b) by (rewrite <- (Forall2_length _ _ _ _ _ G1); apply (Forall2_length _ _ _ _ _ H)).
    assert (z = concat lb) as <-; auto. apply (f_equal (skipn (length b))) in EX. rewrite !skipn_app in EX. replace (length b - length b)%nat with 0%nat in EX by lia. replace (length b - length x)%nat with 0%nat in EX by lia. rewrite skipn_all, <- H0, skipn_all in EX. cbn in EX. auto.
Qed.

(** C74: with hat functions in all dimensions, values that fit together stay. *)
Theorem C74_common_values_kept : forall y v esz tasks S chunk order staleH staleD, wfSystem y v tasks -> hatSetup y -> sysReachable y v esz tasks S ->
  0 < chunk < 2 ^ 31 -> allOrders y S order -> unitySys y (concat (sTasks S)) -> fitTogether y (concat (sTasks S)) ->
  exists S', combineSystem y v esz chunk order staleH staleD S = Some S' /\ Forall2 (Forall2 (sameValuesSys y)) (sTasks S) (sTasks S').
Proof.
  intros y v esz tasks S chunk order sH sD W HH R HC HO HU HF. pose proof W as (HY & HT & _). pose proof (sysReachable_inv _ _ _ _ _ W R) as (I & _).
  assert (WT : Forall (wfTask y) (concat (sTasks S))) by (eapply sameTasks_wf; eauto). rewrite Forall_forall in WT.
  apply (kept_sys y v esz tasks); auto using hat_invertible. intros t u w Ht Hu Hw _ V.
  destruct (sameIndex_point y t u w HY (WT t Ht) (WT u Hu) Hw V) as (P & SP). symmetry. apply (surplus_agree y t u); auto.
Qed.

Lemma toQc_mul : forall a b, toQc (a * b) = (toQc a * toQc b)%Qc.
Proof. intros a b. unfold toQc. apply Qc_is_canon. cbn [this Q2Qc Qcmult]. rewrite !Qred_correct. unfold Qeq, inject_Z, Qmult. cbn. lia. Qed.
Lemma toQc_inj : forall a b, toQc a = toQc b -> a = b.
Proof. intros a b H. unfold toQc in H. apply (f_equal this) in H. cbn [this Q2Qc] in H. assert (E : (inject_Z a == inject_Z b)%Q) by (rewrite <- (Qred_correct (inject_Z a)), H; apply Qred_correct). unfold Qeq, inject_Z in E. cbn in E. lia. Qed.

(** The coordinates of a grid point in the unit cube. *)
Definition coordinates (y : Setup) (L w : list Z) : list Qc :=
  map (fun k => Qcdiv (toQc (gridPos (nth k (yBnds y) 0) (nth k w 0))) (toQc (2 ^ nth k L 0))) (dims y).

(** In particular tasks that hold samples of one function keep them. *)
Theorem C74_sampled_function : forall y v esz tasks S chunk order staleH staleD f, wfSystem y v tasks -> hatSetup y -> sysReachable y v esz tasks S ->
  0 < chunk < 2 ^ 31 -> allOrders y S order -> unitySys y (concat (sTasks S)) ->
  (forall t w, In t (concat (sTasks S)) -> isPoint y t w -> valueAt y t w = f (coordinates y (sLevel t) w)) ->
  exists S', combineSystem y v esz chunk order staleH staleD S = Some S' /\
    Forall2 (Forall2 (fun t t' => sLevel t' = sLevel t /\ sCoeff t' = sCoeff t /\ forall w, isPoint y t w -> valueAt y t' w = f (coordinates y (sLevel t) w))) (sTasks S) (sTasks S').
Proof.
  intros y v esz tasks S chunk order sH sD f W HH R HC HO HU HF. pose proof W as (HY & HT & _). pose proof (sysReachable_inv _ _ _ _ _ W R) as (I & _).
  assert (WT : Forall (wfTask y) (concat (sTasks S))) by (eapply sameTasks_wf; eauto). rewrite Forall_forall in WT.
  destruct (C74_common_values_kept y v esz tasks S chunk order sH sD W HH R HC HO HU) as (S' & E & F).
  - intros t u Ht Hu w w' Hw Hw' SP. rewrite !HF by auto. f_equal. unfold coordinates. apply map_ext_in. intros k Hk. apply dims_In in Hk. specialize (SP k Hk).
    destruct (WT t Ht) as (_ & LT & _). destruct (WT u Hu) as (_ & LU & _). specialize (LT k Hk). specialize (LU k Hk).
    assert (NZ : forall L, 0 <= L -> toQc (2 ^ L) <> 0%Qc).
    { intros L HL. pose proof (pow2_pos L HL). change 0%Qc with (toQc 0). intros X. apply toQc_inj in X. lia. }
    apply (f_equal toQc) in SP. rewrite !toQc_mul in SP.
    pose proof (NZ (nth k (sLevel t) 0) ltac:(lia)). pose proof (NZ (nth k (sLevel u) 0) ltac:(lia)).
    set (a := toQc (2 ^ nth k (sLevel t) 0)) in *. set (b := toQc (2 ^ nth k (sLevel u) 0)) in *.
    set (p := toQc (gridPos _ (nth k w 0))) in *. set (q := toQc (gridPos _ (nth k w' 0))) in *.
    transitivity (p * b / (a * b))%Qc; [field; split; auto|]. rewrite SP. field. split; auto.
  - exists S'. split; auto. clear - F HF. revert HF F. generalize (sTasks S) (sTasks S'). intros l l' HF F. induction F as [|a b la lb H F IH]; constructor.
    + assert (HF' : forall t w, In t a -> isPoint y t w -> valueAt y t w = f (coordinates y (sLevel t) w)) by (intros; apply HF; auto; cbn [concat]; apply in_or_app; now left).
      clear - H HF'. induction H as [|t t' a b (A & B & C) H IH]; constructor; auto.
      * split; auto. split; auto. intros w Hw. rewrite (C w Hw). apply HF'; auto. now left.
      * apply IH. intros; apply HF'; auto. now right.
    + apply IH. intros; apply HF; auto. cbn [concat]. apply in_or_app. now right.
Qed.

(** The tasks are the grids of a combination scheme, in any order. *)
Definition sysTasksOf (s : Scheme) (all : list SysTask) : Prop :=
  Permutation (map (fun t => (sLevel t, sCoeff t)) all) (combine (sSpaces s) (map toQc (sCoeffs s))).

Lemma scheme_unity_level : forall y lmin lmax s all l t, Forall (wfTask y) all -> Forall2 Z.le lmin lmax -> lmin <> [] ->
  Forall (fun x => 1 <= x) lmin -> schemeOf lmin lmax s -> sysTasksOf s all -> In t all -> Forall2 Z.le l (sLevel t) ->
  qsum (map (fun u => if vleb l (sLevel u) then sCoeff u else 0)%Qc all) = 1%Qc.
Proof.
  intros y lmin lmax s all l t HA F N P HS TO Ht LE. unfold sysTasksOf in TO.
  assert (TO' : Permutation (map levelCoeff (map (localTask y 0) all)) (combine (sSpaces s) (map toQc (sCoeffs s)))) by (rewrite map_map; exact TO).
  assert (IN : In (sLevel t, sCoeff t) (combine (sSpaces s) (map toQc (sCoeffs s)))) by (apply (Permutation_in _ TO); change (In ((fun t => (sLevel t, sCoeff t)) t) (map (fun t => (sLevel t, sCoeff t)) all)); now apply in_map).
  apply in_combine_l in IN.
  assert (LC : length (sCoeffs s) = length (sSpaces s)).
  { destruct HS as [->|(NE & S)]; [|now apply (C10_classical_partition_of_unity_partial lmin lmax)].
    unfold adaptiveScheme. destruct (adaptiveSpaces_wf lmin lmax F N P) as [W1 W2].
    assert (Hd : (0 < length lmin)%nat) by (destruct lmin; [congruence|cbn; lia]).
    pose proof (adaptiveCoeffs_eq (length lmin) _ Hd (conj W1 W2)) as E. cbv zeta in E. destruct (adaptiveCoeffs (adaptiveSpaces lmin lmax)) as [sp co]. cbn [sSpaces sCoeffs].
    injection E. intros -> ->. now rewrite map_length. }
  transitivity (qsum (map cCoeff (filter (fun c => vleb l (gLevel (cGrid c))) (map (localTask y 0) all)))).
  { clear. induction all as [|u all IH]; auto. cbn [map filter]. change (gLevel (cGrid (localTask y 0 u))) with (sLevel u). change (qsum (?a :: ?b)) with (a + qsum b)%Qc. rewrite IH.
    destruct (vleb l (sLevel u)); [reflexivity|ring]. }
  rewrite (tasksOf_sum (sSpaces s) (sCoeffs s)); auto.
  - rewrite (schemeOf_unity lmin lmax s (sLevel t) l); auto.
  - apply Forall_forall. intros x Hx. destruct (In_nth _ _ [] Hx) as (i & Hi & Ei).
    assert (INx : In (x, nth i (map toQc (sCoeffs s)) (toQc 0)) (combine (sSpaces s) (map toQc (sCoeffs s)))).
    { rewrite <- Ei. rewrite <- (combine_nth (sSpaces s) (map toQc (sCoeffs s)) i [] (toQc 0)) by (rewrite map_length; lia). apply nth_In. rewrite combine_length, map_length. lia. }
    apply (Permutation_in _ (Permutation_sym TO)) in INx. apply in_map_iff in INx. destruct INx as (u & EX & Hu). injection EX as EX _.
    rewrite Forall_forall in HA. destruct (HA u Hu) as (LU & _). destruct (HA t Ht) as (LT & _). rewrite <- EX, LU, <- LT. symmetry. apply (Forall2_length _ _ _ _ _ LE).
Qed.
Lemma scheme_unitySys : forall y lmin lmax s all, wfSetup y -> Forall (wfTask y) all -> Forall2 Z.le lmin lmax -> lmin <> [] ->
  Forall (fun x => 1 <= x) lmin -> schemeOf lmin lmax s -> sysTasksOf s all -> unitySys y all.
Proof. intros y lmin lmax s all HY HA F N P HS TO l t Hl Ht LE. now apply (scheme_unity_level y lmin lmax s all l t). Qed.

Lemma sameTasks_scheme : forall s a b, sameTasks a b -> sysTasksOf s (concat a) -> sysTasksOf s (concat b).
Proof.
  intros s a b F H. unfold sysTasksOf in *. apply Forall2_concat' in F. replace (map (fun t => (sLevel t, sCoeff t)) (concat b)) with (map (fun t => (sLevel t, sCoeff t)) (concat a)); auto.
  clear H. revert F. generalize (concat a) (concat b). induction 1 as [|t t' l l' [d ->] F IH]; auto. cbn [map]. now rewrite IH.
Qed.

(** The schemes of the library keep samples of a function. *)
Theorem C74_scheme : forall y v esz tasks S chunk order staleH staleD f lmin lmax s, wfSystem y v tasks -> hatSetup y -> sysReachable y v esz tasks S ->
  0 < chunk < 2 ^ 31 -> allOrders y S order ->
  Forall2 Z.le lmin lmax -> lmin <> [] -> Forall (fun x => 1 <= x) lmin -> schemeOf lmin lmax s -> sysTasksOf s (concat tasks) ->
  (forall t w, In t (concat (sTasks S)) -> isPoint y t w -> valueAt y t w = f (coordinates y (sLevel t) w)) ->
  exists S', combineSystem y v esz chunk order staleH staleD S = Some S' /\
    Forall2 (Forall2 (fun t t' => sLevel t' = sLevel t /\ sCoeff t' = sCoeff t /\ forall w, isPoint y t w -> valueAt y t' w = f (coordinates y (sLevel t) w))) (sTasks S) (sTasks S').
Proof.
  intros y v esz tasks S chunk order sH sD f lmin lmax s W HH R HC HO F N P HS TO HF. pose proof W as (HY & HT & _). pose proof (sysReachable_inv _ _ _ _ _ W R) as (I & _).
  apply (C74_sampled_function y v esz tasks); auto. apply (scheme_unitySys y lmin lmax s); auto; [eapply sameTasks_wf; eauto|eapply sameTasks_scheme; eauto].
Qed.

(** ** A second combination changes nothing *)

Lemma samePoint_level : forall y t u w w', wfSetup y -> wfTask y t -> wfTask y u -> isPoint y t w -> samePoint y (sLevel t) (sLevel u) w w' ->
  levelOf y (sLevel u) w' = levelOf y (sLevel t) w.
Proof.
  intros y t u w w' HY HT HU Hw SP. unfold levelOf. apply map_ext_in. intros k Hk. apply dims_In in Hk. rewrite !getLevel_lev. f_equal.
  apply (isPoint_nth y t w HY HT) in Hw. destruct Hw as [_ Hw]. specialize (Hw k Hk). destruct HT as (_ & LT & _). destruct HU as (_ & LU & _). specialize (LT k Hk). specialize (LU k Hk).
  pose proof HY as (_ & _ & _ & _ & HK & _). destruct (HK k Hk) as (_ & B & _). pose proof (pow2_pos (nth k (sLevel t) 0) ltac:(lia)).
  symmetry. apply (same_pos (nth k (sLevel t) 0) (nth k (sLevel u) 0)); try lia.
  - unfold gridPos. destruct (Z.eqb_spec (nth k (yBnds y) 0) 0); lia.
  - now apply SP.
Qed.

Lemma samePoint_index : forall y t u v w w', wfTask y t -> wfTask y u -> wfTask y v -> samePoint y (sLevel t) (sLevel u) w w' ->
  sameIndex y (sLevel u) (sLevel v) w' = sameIndex y (sLevel t) (sLevel v) w.
Proof.
  intros y t u v w w' HT HU HV SP. unfold sameIndex. apply map_ext_in. intros k Hk. apply dims_In in Hk. specialize (SP k Hk). unfold sameIndex1. f_equal.
  destruct HT as (_ & LT & _). destruct HU as (_ & LU & _). destruct HV as (_ & LV & _). specialize (LT k Hk). specialize (LU k Hk). specialize (LV k Hk).
  set (p := gridPos _ (nth k w 0)) in *. set (q := gridPos _ (nth k w' 0)) in *.
  pose proof (pow2_pos (nth k (sLevel t) 0) ltac:(lia)). pose proof (pow2_pos (nth k (sLevel u) 0) ltac:(lia)).
  rewrite <- (Z.div_mul_cancel_r (p * _) (2 ^ nth k (sLevel t) 0) (2 ^ nth k (sLevel u) 0)) by lia.
  rewrite <- (Z.div_mul_cancel_r (q * _) (2 ^ nth k (sLevel u) 0) (2 ^ nth k (sLevel t) 0)) by lia.
  f_equal; [|lia]. transitivity (q * 2 ^ nth k (sLevel t) 0 * 2 ^ nth k (sLevel v) 0); [ring|]. rewrite <- SP. ring.
Qed.

Theorem C75_second_combination : forall y v esz tasks S S1 chunk order staleH staleD chunk' order' staleH' staleD', wfSystem y v tasks -> invertible y ->
  sysReachable y v esz tasks S -> unitySys y (concat (sTasks S)) ->
  0 < chunk < 2 ^ 31 -> allOrders y S order -> combineSystem y v esz chunk order staleH staleD S = Some S1 ->
  0 < chunk' < 2 ^ 31 -> allOrders y S1 order' ->
  exists S2, combineSystem y v esz chunk' order' staleH' staleD' S1 = Some S2 /\ Forall2 (Forall2 (sameValuesSys y)) (sTasks S1) (sTasks S2).
Proof.
  intros y v esz tasks S S1 chunk order sH sD chunk' order' sH' sD' W HI R HU HC HO E HC' HO'.
  destruct (combine_sys y v esz tasks S chunk order sH sD W R HC HO) as (X & EX & R1 & ST & F). rewrite E in EX. injection EX as <-.
  pose proof W as (HY & HT & _). pose proof (sysReachable_inv _ _ _ _ _ W R) as (I & _).
  assert (WT : Forall (wfTask y) (concat (sTasks S))) by (eapply sameTasks_wf; eauto). rewrite Forall_forall in WT.
  apply (kept_sys y v esz tasks); auto.
  - (* the coefficients are the same *)
    intros l t1 Hl Ht1 LE. destruct (Forall2_In_r _ _ _ _ F Ht1) as (t & Ht & (L1 & _ & _)).
    rewrite <- (HU l t Hl Ht) by (now rewrite <- L1).
    assert (F' : Forall2 (fun t t' => sLevel t' = sLevel t /\ sCoeff t' = sCoeff t) (concat (sTasks S)) (concat (sTasks S1))) by (eapply Forall2_imp2; [|exact F]; intros a b (A & B & _); auto).
    clear - F'. induction F' as [|a b la lb (A & B) G IH]; auto. cbn [map]. change (qsum (?a :: ?b)) with (a + qsum b)%Qc. now rewrite IH, A, B.
  - (* after the first combination the tasks have the same coefficients at common points *)
    intros t1 u1 w Ht1 Hu1 Hw IL V.
    destruct (Forall2_In_r _ _ _ _ F Ht1) as (t & Ht & (A1 & _ & A3)). destruct (Forall2_In_r _ _ _ _ F Hu1) as (u & Hu & (B1 & _ & B3)).
    rewrite A1, B1 in *. assert (Hw' : isPoint y t w) by (unfold isPoint in *; now rewrite A1 in Hw). clear Hw.
    destruct (sameIndex_point y t u w HY (WT t Ht) (WT u Hu) Hw' V) as (P & SP). set (w' := sameIndex y (sLevel t) (sLevel u) w) in *.
    assert (C : forall a a1 x, In a (concat (sTasks S)) -> (forall z, isPoint y a z -> valueAt y a1 z = nodal y (sLevel a) (combinedAt y (concat (sTasks S)) (fun u0 => surplus y (sLevel u0) (valueAt y u0)) a) z) ->
        isPoint y a x -> surplus y (sLevel a) (valueAt y a1) x = combinedAt y (concat (sTasks S)) (fun u0 => surplus y (sLevel u0) (valueAt y u0)) a x).
    { intros a a1 x Ha HA Hx. transitivity (surplus y (sLevel a) (nodal y (sLevel a) (combinedAt y (concat (sTasks S)) (fun u0 => surplus y (sLevel u0) (valueAt y u0)) a)) x).
      - unfold surplus. apply surplus_ext; auto.
      - now apply (roundtrip_sys y a true); auto. }
    rewrite (C t t1 w Ht A3 Hw'), (C u u1 w' Hu B3 P). unfold combinedAt. cbv zeta.
    rewrite (samePoint_level y t u w w') by auto. destruct (in_dec _ _ _) as [_|X]; [|contradiction]. f_equal. apply map_ext_in. intros z Hz.
    rewrite (samePoint_index y t u z w w') by auto. reflexivity.
Qed.

(** ** Examples *)

(** Two groups of two processes each; the classical scheme from (1,1) to (2,2), hat functions, two boundary points. *)
Definition exSetup : Setup :=
  {| yProcs := [2; 1]; yBnds := [2; 2]; yRef := [2; 2]; yDecs := [[0; 2]; [0]]; yDims := [true; true]; yBases := [Hat; Hat]; yLmin := [0; 0];
     yLevels := [[1; 1]; [1; 2]; [2; 1]] |}.
(** The data of a task from its values by global index. *)
Definition exData (y : Setup) (L : list Z) (G : list Z -> Qc) (r : Z) : arr := fun k =>
  G (vadd (hLower (taskCfg y L) r) (getVectorIndex (hLocalSizes (taskCfg y L) r) k)).
Definition exTask (y : Setup) (L : list Z) (c : Qc) (G : list Z -> Qc) : SysTask :=
  {| sLevel := L; sCoeff := c; sThreads := fun r => if r =? 0 then [getDownSet L] else map (fun l => [l]) (getDownSet L); sData := exData y L G |}.
Definition exNum (a : Z) (w : list Z) : Qc := toQc (a + 3 * nth 0 w 0 * nth 0 w 0 - 7 * nth 0 w 0 * nth 1 w 0).
Definition exSys : list (list SysTask) :=
  [[exTask exSetup [2; 1] (toQc 1) (exNum 1); exTask exSetup [1; 1] (toQc (-1)) (exNum 2)]; [exTask exSetup [1; 2] (toQc 1) (exNum 5)]].

(** All values of all tasks. *)
Definition exValues (y : Setup) (S : System) : list (list (list Q)) :=
  map (map (fun t => map (fun k => this (valueAt y t (getVectorIndex (globalSizes (sLevel t) (yBnds y)) k))) (zrange 0 (zprod (globalSizes (sLevel t) (yBnds y)))))) (sTasks S).
Definition exStale (d : nat) (r k : Z) : arr := fun i => toQc (1000 + i).
Definition exResult (v : CombinationVariant) : option (list (list (list Q))) :=
  match startSystem exSetup v 8 exSys with
  | Some X => option_map (exValues exSetup) (combineSystem exSetup v 8 3 (fun _ => [[0; 1]%nat]) exStale exStale X)
  | None => None
  end.

Lemma exTask_wf : forall y L c G, length L = length (yRef y) -> (forall k, (k < length (yRef y))%nat -> 1 <= nth k L 0 <= nth k (yRef y) 0) ->
  validDec (yProcs y) (globalSizes L (yBnds y)) (downsampleDecomposition (yDecs y) (yRef y) L (yBnds y)) ->
  (forall r, 0 <= r < zprod (yProcs y) -> zprod (hLocalSizes (taskCfg y L) r) < 2 ^ 32) -> wfTask y (exTask y L c G).
Proof.
  intros y L c G H1 H2 H3 H4. split; [exact H1|]. split; [exact H2|]. split; [exact H3|]. intros r Hr. split; [|split; [|now apply H4]].
  - cbn [exTask sThreads]. destruct (r =? 0); [constructor; [apply C08_downset_sorted|constructor]|]. apply Forall_forall. intros x Hx. apply in_map_iff in Hx. destruct Hx as (l & <- & _). repeat constructor.
  - cbn [exTask sThreads sLevel]. destruct (r =? 0); [cbn [concat]; rewrite app_nil_r; apply Permutation_refl|].
    replace (concat (map (fun l => [l]) (getDownSet L))) with (getDownSet L); auto. induction (getDownSet L) as [|a l IH]; auto. cbn [map concat app]. now rewrite <- IH.
Qed.

Lemma exTask_values : forall y L c G w, wfSetup y -> wfTask y (exTask y L c G) -> isPoint y (exTask y L c G) w -> valueAt y (exTask y L c G) w = G w.
Proof.
  intros y L c G w HY HT Hw. pose proof (taskCfg_wf y _ HY HT) as WC. apply (represents_box (taskCfg y L) G (exData y L G)); auto.
  intros r v Hr Hv. unfold exData. rewrite C01_vector_roundtrip; auto.
Qed.

Lemma exSetup_wf : wfSetup exSetup.
Proof.
  split; [cbn; lia|]. split; [reflexivity|]. split; [reflexivity|]. split; [|split; [|split; [|split]]].
  - split; [reflexivity|]. split; [reflexivity|]. intros [|[|i]] Hi; cbn in Hi; try lia; (split; [reflexivity|]; split; [reflexivity|split]).
    + intros [|[|i]] [|[|j]] H; cbn in *; lia.
    + intros [|[|i]] H; cbn in *; lia.
    + intros [|i] [|j] H; cbn in *; lia.
    + intros [|i] H; cbn in *; lia.
  - intros [|[|k]] Hk; cbn in *; try lia; intuition lia.
  - eexists. reflexivity.
  - split; repeat constructor; lia.
  - repeat constructor; lia.
Qed.

Lemma exTasks_wf : forall G1 G2 G3 c1 c2 c3, Forall (wfTask exSetup) [exTask exSetup [2; 1] c1 G1; exTask exSetup [1; 1] c2 G2; exTask exSetup [1; 2] c3 G3].
Proof.
  assert (V : forall L d0, downsampleDecomposition [[0; 2]; [0]] [2; 2] L [2; 2] = [[0; d0]; [0]] -> length (globalSizes L [2; 2]) = 2%nat -> 0 < d0 < nth 0 (globalSizes L [2; 2]) 0 ->
     0 < nth 1 (globalSizes L [2; 2]) 0 -> validDec [2; 1] (globalSizes L [2; 2]) (downsampleDecomposition [[0; 2]; [0]] [2; 2] L [2; 2])).
  { intros L d0 -> H0 H1 H2. split; [reflexivity|]. split; [now rewrite H0|]. intros [|[|i]] Hi; cbn in Hi; try lia; (split; [reflexivity|]; split; [reflexivity|split]).
    + intros [|[|i]] [|[|j]] H; cbn in *; lia.
    + intros [|[|i]] H; cbn [nth] in *; cbn in H; try lia.
    + intros [|i] [|j] H; cbn in *; lia.
    + intros [|i] H; cbn [nth] in *; cbn in H; lia. }
  assert (W : forall L c G d0, downsampleDecomposition [[0; 2]; [0]] [2; 2] L [2; 2] = [[0; d0]; [0]] -> 0 < d0 < nth 0 (globalSizes L [2; 2]) 0 ->
     0 < nth 1 (globalSizes L [2; 2]) 0 -> length L = 2%nat -> 1 <= nth 0 L 0 <= 2 -> 1 <= nth 1 L 0 <= 2 ->
     forallb (fun r => zprod (hLocalSizes (taskCfg exSetup L) r) <? 2 ^ 32) [0; 1] = true -> wfTask exSetup (exTask exSetup L c G)).
  { intros L c G d0 H1 H2 H3 H4 H5 H6 H7. apply exTask_wf; auto.
    - intros [|[|k]] Hk; cbn [exSetup yRef nth] in *; cbn in Hk; lia.
    - apply (V L d0); auto. destruct L as [|a [|b [|c0 L]]]; try discriminate. reflexivity.
    - intros r Hr. rewrite forallb_forall in H7. apply Z.ltb_lt, H7. change (zprod (yProcs exSetup)) with 2 in Hr. cbn. lia. }
  intros. constructor; [|constructor; [|constructor; [|constructor]]]; [apply (W _ _ _ 2)|apply (W _ _ _ 1)|apply (W _ _ _ 1)]; try (vm_compute; split; discriminate || reflexivity); try (vm_compute; reflexivity).
Qed.

Lemma exSys_wf : forall v G1 G2 G3 c1 c2 c3, wfSystem exSetup v [[exTask exSetup [2; 1] c1 G1; exTask exSetup [1; 1] c2 G2]; [exTask exSetup [1; 2] c3 G3]].
Proof.
  intros. split; [apply exSetup_wf|]. split; [apply exTasks_wf|]. intros r Hr. change (zprod (yProcs exSetup)) with 2 in Hr.
  set (ts := map (map (localTask exSetup r)) _).
  assert (S : zsum (map (cntOf (concat ts)) (yLevels exSetup)) < 2 ^ 31) by (assert (r = 0 \/ r = 1) as [-> | ->] by lia; vm_compute; reflexivity).
  assert (S' : forall l, In l (yLevels exSetup) -> cntOf (concat ts) l < 2 ^ 31) by (intros l [<-|[<-|[<-|[]]]]; assert (r = 0 \/ r = 1) as [-> | ->] by lia; vm_compute; reflexivity).
  assert (J : forall g, (g < length ts)%nat -> sharesLevel (yLevels exSetup) ts g).
  { assert (H1 : holdsLevel ts [1; 1] 0) by (exists (localTask exSetup r (exTask exSetup [2; 1] c1 G1)); split; [now left|split; [repeat constructor; cbn; lia|assert (r = 0 \/ r = 1) as [-> | ->] by lia; vm_compute; discriminate]]).
    assert (H2 : holdsLevel ts [1; 1] 1) by (exists (localTask exSetup r (exTask exSetup [1; 2] c3 G3)); split; [now left|split; [repeat constructor; cbn; lia|assert (r = 0 \/ r = 1) as [-> | ->] by lia; vm_compute; discriminate]]).
    intros [|[|g]] Hg; [exists [1; 1], 1%nat|exists [1; 1], 0%nat|cbn in Hg; lia]; (split; [now left|split; [lia|split; assumption]]). }
  destruct v; cbn [variantFits]; repeat split; auto; cbn; lia.
Qed.
Example C72_ex_hyps : forall v, wfSystem exSetup v exSys.
Proof. intros v. apply exSys_wf. Qed.
Example C72_ex : exResult VSubspace = exResult VOutgroup /\ exResult VChunkedOutgroup = exResult VOutgroup /\
  exResult VOutgroup = Some
    [[[4; 7; 16; 31; 52; 4; -7 # 2; -5; -1 # 2; 10; 4; -14; -26; -32; -32]; [4; 16; 52; 4; -5; 10; 4; -26; -32]];
     [[4; 16; 52; 4; 11 # 2; 31; 4; -5; 10; 4; -31 # 2; -11; 4; -26; -32]]]%Q.
Proof. split; [vm_compute; reflexivity|split; vm_compute; reflexivity]. Qed.

(** The same tasks in one group of three processes, with another decomposition, reference level and order. *)
Definition exSetup' : Setup :=
  {| yProcs := [1; 3]; yBnds := [2; 2]; yRef := [2; 3]; yDecs := [[0]; [0; 3; 6]]; yDims := [true; true]; yBases := [Hat; Hat]; yLmin := [0; 0];
     yLevels := [[1; 1]; [1; 2]; [2; 1]] |}.
Definition exSys' : list (list SysTask) :=
  [[exTask exSetup' [1; 2] (toQc 1) (exNum 5); exTask exSetup' [2; 1] (toQc 1) (exNum 1); exTask exSetup' [1; 1] (toQc (-1)) (exNum 2)]].
Lemma exSetup'_wf : wfSetup exSetup'.
Proof.
  split; [cbn; lia|]. split; [reflexivity|]. split; [reflexivity|]. split; [|split; [|split; [|split]]].
  - split; [reflexivity|]. split; [reflexivity|]. intros [|[|i]] Hi; cbn in Hi; try lia; (split; [reflexivity|]; split; [reflexivity|split]).
    + intros [|i] [|j] H; cbn in *; lia.
    + intros [|i] H; cbn in *; lia.
    + intros [|[|[|i]]] [|[|[|j]]] H; cbn in *; lia.
    + intros [|[|[|i]]] H; cbn in *; lia.
  - intros [|[|k]] Hk; cbn in *; try lia; intuition lia.
  - eexists. reflexivity.
  - split; repeat constructor; lia.
  - repeat constructor; lia.
Qed.
Lemma exSys'_wf : wfSystem exSetup' VSparseGrid exSys'.
Proof.
  assert (W : forall L c G d1 d2, downsampleDecomposition [[0]; [0; 3; 6]] [2; 3] L [2; 2] = [[0]; [0; d1; d2]] -> 0 < nth 0 (globalSizes L [2; 2]) 0 -> 0 < d1 < d2 ->
     d2 < nth 1 (globalSizes L [2; 2]) 0 -> length L = 2%nat -> 1 <= nth 0 L 0 <= 2 -> 1 <= nth 1 L 0 <= 3 ->
     forallb (fun r => zprod (hLocalSizes (taskCfg exSetup' L) r) <? 2 ^ 32) [0; 1; 2] = true -> wfTask exSetup' (exTask exSetup' L c G)).
  { intros L c G d1 d2 H1 H2 H3 H3' H4 H5 H6 H7. apply exTask_wf; auto.
    - intros [|[|k]] Hk; cbn [exSetup' yRef nth] in *; cbn in Hk; lia.
    - cbn [exSetup' yDecs yRef yBnds yProcs]. rewrite H1. split; [reflexivity|]. split; [destruct L as [|a [|b [|c0 L]]]; try discriminate; reflexivity|].
      intros [|[|i]] Hi; cbn in Hi; try lia; (split; [reflexivity|]; split; [reflexivity|split]).
      + clear. intros [|i] [|j] H; cbn in *; lia.
      + intros [|i] H; cbn [nth] in *; cbn in H; lia.
      + clear - H3. intros [|[|[|i]]] [|[|[|j]]] H; cbn in *; lia.
      + intros [|[|[|i]]] H; cbn [nth] in *; cbn in H; lia.
    - intros r Hr. rewrite forallb_forall in H7. apply Z.ltb_lt, H7. change (zprod (yProcs exSetup')) with 3 in Hr. cbn. lia. }
  split; [apply exSetup'_wf|]. split.
  - constructor; [|constructor; [|constructor; [|constructor]]]; [apply (W _ _ _ 2 3)|apply (W _ _ _ 1 2)|apply (W _ _ _ 1 2)]; try (vm_compute; split; discriminate || reflexivity); try (vm_compute; reflexivity).
  - intros r Hr. change (zprod (yProcs exSetup')) with 3 in Hr. assert (r = 0 \/ r = 1 \/ r = 2) as [-> |[-> | ->]] by lia; vm_compute; reflexivity.
Qed.
Example C73_ex_hyps : sameProblem exSetup exSetup' /\ wfSystem exSetup' VSparseGrid exSys' /\
  exists us, Permutation us (concat exSys') /\ Forall2 (sameFunction exSetup exSetup') (concat exSys) us.
Proof.
  split; [repeat split|]. split; [apply exSys'_wf|].
  exists [exTask exSetup' [2; 1] (toQc 1) (exNum 1); exTask exSetup' [1; 1] (toQc (-1)) (exNum 2); exTask exSetup' [1; 2] (toQc 1) (exNum 5)].
  split; [apply (Permutation_app_comm [_; _] [_])|].
  destruct exSys'_wf as (HY' & HT' & _). destruct (C72_ex_hyps VSparseGrid) as (HY & HT & _). rewrite Forall_forall in HT, HT'.
  repeat constructor; intros w Hw; rewrite exTask_values, exTask_values; auto; first [apply HT|apply HT']; cbn; tauto.
Qed.
(** Task by task the same values as in [C72_ex]. *)
Example C73_ex :
  match startSystem exSetup' VSparseGrid 8 exSys' with
  | Some X => option_map (exValues exSetup') (combineSystem exSetup' VSparseGrid 8 5 (fun _ => []) exStale exStale X)
  | None => None
  end = Some
    [[[4; 16; 52; 4; 11 # 2; 31; 4; -5; 10; 4; -31 # 2; -11; 4; -26; -32];
      [4; 7; 16; 31; 52; 4; -7 # 2; -5; -1 # 2; 10; 4; -14; -26; -32; -32]; [4; 16; 52; 4; -5; 10; 4; -26; -32]]]%Q.
Proof. vm_compute. reflexivity. Qed.

(** Samples of one function. *)
Definition exFun (x : list Qc) : Qc := (nth 0 x 0 * nth 0 x 0 + (1 + 1 + 1) * nth 0 x 0 * nth 1 x 0)%Qc.
Definition exSampled : list (list SysTask) :=
  [[exTask exSetup [2; 1] (toQc 1) (fun w => exFun (coordinates exSetup [2; 1] w)); exTask exSetup [1; 1] (toQc (-1)) (fun w => exFun (coordinates exSetup [1; 1] w))];
   [exTask exSetup [1; 2] (toQc 1) (fun w => exFun (coordinates exSetup [1; 2] w))]].
Example C74_ex_hyps : forall v, wfSystem exSetup v exSampled /\ hatSetup exSetup /\ schemeOf [1; 1] [2; 2] (classicalScheme [1; 1] [2; 2]) /\
  sysTasksOf (classicalScheme [1; 1] [2; 2]) (concat exSampled) /\
  forall t w, In t (concat exSampled) -> isPoint exSetup t w -> valueAt exSetup t w = exFun (coordinates exSetup (sLevel t) w).
Proof.
  intros v. assert (W : wfSystem exSetup v exSampled) by apply exSys_wf. split; auto. split; [intros [|[|k]] Hk _; cbn in Hk; try lia; now left|].
  split; [right; split; [discriminate|now left]|]. split.
  - unfold sysTasksOf. change (map _ (concat exSampled)) with [([2; 1], toQc 1); ([1; 1], toQc (-1)); ([1; 2], toQc 1)].
    change (combine _ _) with [([1; 1], toQc (-1)); ([1; 2], toQc 1); ([2; 1], toQc 1)].
    eapply Permutation_trans; [apply perm_swap|]. constructor. apply perm_swap.
  - destruct W as (HY & HT & _). rewrite Forall_forall in HT. intros t w Ht Hw. specialize (HT t Ht).
    destruct Ht as [<-|[<-|[<-|[]]]]; apply exTask_values; auto.
Qed.
Definition exTwice (y : Setup) (v : CombinationVariant) (ts : list (list SysTask)) : option (list (list (list Q)) * list (list (list Q)) * list (list (list Q))) :=
  match startSystem y v 8 ts with
  | Some X => match combineSystem y v 8 3 (fun _ => [[0; 1]%nat]) exStale exStale X with
              | Some X1 => match combineSystem y v 8 3 (fun _ => [[0; 1]%nat]) exStale exStale X1 with
                           | Some X2 => Some (exValues y X, exValues y X1, exValues y X2)
                           | None => None
                           end
              | None => None
              end
  | None => None
  end.
Example C74_ex : match exTwice exSetup VOutgroup exSampled with Some (a, b, c) => a = b /\ b = c | None => False end.
Proof. vm_compute. split; reflexivity. Qed.
(** With full weighting, the samples of this function are not kept, but the second combination changes nothing more. *)
Definition exSetupFW : Setup :=
  {| yProcs := [2; 1]; yBnds := [2; 2]; yRef := [2; 2]; yDecs := [[0; 2]; [0]]; yDims := [true; true]; yBases := [FullWeighting; Biorthogonal]; yLmin := [0; 0];
     yLevels := [[1; 1]; [1; 2]; [2; 1]] |}.
Example C75_ex_hyps : invertible exSetupFW /\ wfSetup exSetupFW.
Proof.
  split; [|destruct exSetup_wf as (A & B & C & D & E & F & G & H); repeat (split; [assumption|]); split; [|repeat (split; [assumption|]); assumption]].
  - intros [|[|k]] Hk _; cbn in Hk; try lia; (split; [discriminate|split; [discriminate|]]); split; discriminate.
  - intros [|[|k]] Hk; cbn in Hk; try lia; cbn; intuition lia.
Qed.
Example C75_ex : match exTwice exSetupFW VOutgroup exSampled with Some (a, b, c) => a <> b /\ b = c | None => False end.
Proof. vm_compute. split; [discriminate|reflexivity]. Qed.

Print Assumptions C72_start.
Print Assumptions C72_combination.
Print Assumptions C73_distribution_independent.
Print Assumptions C74_common_values_kept.
Print Assumptions C74_sampled_function.
Print Assumptions C74_scheme.
Print Assumptions C75_second_combination.
