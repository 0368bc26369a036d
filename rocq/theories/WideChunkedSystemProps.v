(** Property C107: a combination of several whole systems through files in chunks. *)
From Verif Require Import Base TensorModel TensorProofs PartitionModel PartitionProofs DecompModel DecompProofs DofModel DofProofs Level1dModel
  Level1dProofs LevelSetsModel LevelSetsProofs SubspaceModel SubspaceProofs SubspaceProps CombiSchemeModel CombiSchemeProofs CombiSchemeProps Hier1dModel Hier1dProofs HierMassProofs Hier1dProps
  DistHierModel DistHierProofs DistExchangeProofs DistPoleProofs HierNDModel HierNDProofs HierLinProofs HierNDProps
  SparseGridModel SparseGridProofs CombineModel SparseTransferProofs SparseGridProps ReduceModel ReduceProofs VoteProofs SubspaceReduceProofs
  CombiStepModel CombiStepProofs CombiInitProofs CombiStepProps FileModel FileProps ExchangeModel ExchangeProps
  WideModel WideProofs WideStepProofs WideInitProofs WideProps SystemModel SystemProofs SystemHatProofs SystemProps SystemMassProofs SystemMassProps WideSystemModel WideSystemProofs WideSystemProps
  WideChunkedModel WideChunkedProofs WideChunkedStepProofs WideChunkedInitProofs WideChunkedProps WideChunkedSystemModel WideChunkedSystemProofs.
From Coq Require Import QArith Qcanon Permutation.
Open Scope Z_scope.
Ltac Zify.zify_post_hook ::= idtac.

(** As for C93; a system has at most 256 groups, and two systems have a task each whose common subspaces belong to the sparse grid. *)
Definition wfChunked (y : Setup) (conf : nat -> Conf) (tasks : list (list (list SysTask))) : Prop :=
  wfWide y conf tasks /\ (forall ts, In ts tasks -> (length ts <= 256)%nat) /\ shareTasks y tasks.

(** The states that can be reached by computing and combining. *)
Inductive chunkedReachable (y : Setup) (esz : Z) (fuel : nat) (conf : nat -> Conf) (tasks : list (list (list SysTask))) : WideSys -> Prop :=
| csys_init : forall W, startChunkedSystem y esz conf tasks = Some W -> chunkedReachable y esz fuel conf tasks W
| csys_solve : forall W ts, chunkedReachable y esz fuel conf tasks W -> Forall2 sameTasks (wTasks W) ts -> chunkedReachable y esz fuel conf tasks {| wTasks := ts; wProcs := wProcs W |}
| csys_combine : forall W W' conf' olds staleH staleD, chunkedReachable y esz fuel conf tasks W -> confsFit y fuel conf conf' olds tasks ->
    combineChunkedSystem y esz conf' fuel olds staleH staleD W = Some W' -> chunkedReachable y esz fuel conf tasks W'.

Lemma wfChunked_fits : forall y conf tasks, wfChunked y conf tasks -> chunkedFits (length (yRef y)) (yLevels y) (ranks y) conf (processTasks y tasks).
Proof.
  intros y conf tasks (HW & HG & HS). split; [now apply wfWide_fits|]. split.
  - intros s ts p gs Es Eg. rewrite processTasks_nth in Es. destruct (nth_error tasks s) as [us|] eqn:Et; [|discriminate]. injection Es as <-. rewrite nth_error_map', zrange_nth_error in Eg.
    destruct (Z.of_nat p <? _); [|discriminate]. injection Eg as <-. rewrite map_length. apply HG. now apply nth_error_In in Et.
  - intros p Hp. destruct HW as (HY & HT & _). apply shared_positive; auto. unfold ranks in Hp. lia.
Qed.

Section ChunkedSystem.
Variables (y : Setup) (esz : Z) (fuel : nat) (conf : nat -> Conf) (tasks : list (list (list SysTask))).
Hypothesis HW : wfChunked y conf tasks.

Definition chunkedSysInv (W : WideSys) : Prop := Forall2 sameTasks tasks (wTasks W) /\ Forall2 (shaped y) (wTasks W) (wProcs W) /\
  reachableChunked esz (yLevels y) (ranks y) fuel conf (processTasks y tasks) (localProcs y W).

Lemma chunkedSys_start : exists W, startChunkedSystem y esz conf tasks = Some W /\ wTasks W = tasks /\ chunkedSysInv W.
Proof.
  pose proof HW as ((HY & _) & _). pose proof HY as (_ & _ & _ & _ & _ & (rest & EL) & HL & HP). pose proof (wfChunked_fits y conf tasks HW) as WF. rewrite EL in *.
  destruct (C106_start esz (length (yRef y)) rest (ranks y) conf (processTasks y tasks) HL HP WF) as (ws & E & M). unfold startChunkedSystem. rewrite EL, E. eexists. split; [reflexivity|]. split; [reflexivity|].
  destruct (shaped_back y tasks ws M) as [SH LP]. split; [|split; [exact SH|]].
  - clear. induction tasks as [|t l IH]; constructor; auto. apply sameTasks_refl.
  - rewrite LP, EL. now apply chunked_init.
Qed.
Lemma chunkedSys_solve : forall W ts, chunkedSysInv W -> Forall2 sameTasks (wTasks W) ts -> chunkedSysInv {| wTasks := ts; wProcs := wProcs W |}.
Proof.
  intros [ts0 ws] ts (A & B & R) F. cbn [wTasks wProcs] in *. split; [|split]; cbn [wTasks wProcs].
  - now apply (sameAll_trans _ ts0).
  - now apply (shaped_same y ts0).
  - apply (chunked_solve _ _ _ _ _ _ (localProcs y {| wTasks := ts0; wProcs := ws |})); auto. now apply localProcs_solved.
Qed.

Lemma chunkedSys_combine : forall W conf' olds staleH staleD, chunkedSysInv W -> confsFit y fuel conf conf' olds tasks ->
  exists W', combineChunkedSystem y esz conf' fuel olds staleH staleD W = Some W' /\ chunkedSysInv W' /\ Forall2 sameTasks (wTasks W) (wTasks W') /\
    Forall2 (combinedSys y (concat (concat (wTasks W)))) (concat (concat (wTasks W))) (concat (concat (wTasks W'))).
Proof.
  intros [ts ws] conf' olds staleH staleD I HC. pose proof HW as ((HY & HT & _) & _). pose proof HY as (_ & _ & _ & _ & _ & (rest & EL) & HL & HP). pose proof (wfChunked_fits y conf tasks HW) as WF.
  pose proof I as (A & B & R). cbn [wTasks wProcs] in *.
  assert (WS : Forall (wfTask y) (concat (concat ts))) by (apply (sameTasks_wf y (concat tasks)); [now apply sameAll_concat|exact HT]).
  destruct (sweepSystems_spec y false staleH ts HY WS) as (ts1 & E1 & F1). unfold combineChunkedSystem. cbn [wTasks wProcs]. rewrite E1.
  assert (K1 : Forall2 sameTasks ts ts1) by (eapply Forall2_imp2; [|exact F1]; intros a b; apply sameTasks_of).
  set (W1 := {| wTasks := ts1; wProcs := ws |}). pose proof (chunkedSys_solve {| wTasks := ts; wProcs := ws |} ts1 I K1 : chunkedSysInv W1) as (A1 & B1 & R1). cbn [W1 wTasks wProcs] in A1, B1.
  assert (W1' : Forall (wfTask y) (concat (concat ts1))) by (apply (sameTasks_wf y (concat tasks)); [now apply sameAll_concat|exact HT]).
  assert (HC' : forall s, (s < length (processTasks y tasks))%nat -> fOut (conf' s) = fOut (conf s) /\ confFits (yLevels y) (ranks y) (processTasks y tasks) fuel (olds s) (conf' s)).
  { intros s Hs. unfold processTasks in Hs. rewrite map_length in Hs. auto. }
  assert (C : exists ws', combineChunked esz (yLevels y) conf' fuel olds (localProcs y W1) = Some ws' /\ everyTask (fun p => combinedTask (yLevels y) (allHeld (localProcs y W1) p)) (localProcs y W1) ws').
  { clear E1 F1 B W1'. clearbody W1. rewrite EL in *. exact (C106_combination esz (length (yRef y)) rest (ranks y) fuel conf (processTasks y tasks) (localProcs y W1) conf' olds HL HP WF R1 HC'). }
  destruct C as (ws' & E2 & (LW & FW)). rewrite E2.
  (* the tasks of the ranks of every system *)
  assert (LT : length ws = length ts1) by (apply Forall2_length in B1; auto).
  assert (ST : forall s ts1s, nth_error ts1 s = Some ts1s -> exists ps', nth_error ws' s = Some ps' /\ length ps' = ranks y /\ forall r, 0 <= r < zprod (yProcs y) ->
     Forall2 (fun us g' => Forall2 (fun t c => combinedTask (yLevels y) (map (localTask y r) (concat (concat ts1))) (localTask y r t) c) us (gTasks g')) ts1s (nth (Z.to_nat r) (map pGroups ps') [])).
  { intros s ts1s Es. pose proof (Forall2_to_nth _ _ _ B1 s) as X. rewrite Es in X. destruct (nth_error ws s) as [ps|] eqn:Ep; [|contradiction]. destruct X as [L SHP].
    destruct (FW s (map (localProc y ts1s) (indexed ps))) as (ps' & Eps' & LP & G); [rewrite localProcs_nth; cbn [W1 wTasks wProcs]; now rewrite Es, Ep|].
    rewrite map_length, indexed_length in LP. exists ps'. split; auto. split; [unfold ranks; lia|]. intros r Hr. destruct (nth_error_lt ps (Z.to_nat r) ltac:(lia)) as (pr & Epr).
    destruct (G (Z.to_nat r) (localProc y ts1s (Z.to_nat r, pr))) as (pr' & Epr' & FG); [rewrite map_localProc_nth; now rewrite Epr|].
    rewrite (nth_error_nth (map pGroups ps') (Z.to_nat r) (x := pGroups pr')) by (rewrite nth_error_map'; now rewrite Epr').
    rewrite (held_local y W1 (Z.to_nat r) B1) in FG by lia. rewrite Z2Nat.id in FG by lia. refine (groups_tasks _ _ _ _ _ FG _). rewrite localProc_tasks by (rewrite Forall_forall in SHP; apply SHP; now apply nth_error_In in Epr). now rewrite Z2Nat.id by lia. }
  assert (LL : length ws' = length ts1) by (rewrite LW; unfold localProcs; rewrite map_length, combine_length; cbn [W1 wTasks wProcs]; lia).
  set (ts2 := gatherWide ts1 ws').
  assert (N2 : forall s, nth_error ts2 s = match nth_error ts1 s, nth_error ws' s with Some t, Some ps => Some (gatherTasks t (map pGroups ps)) | _, _ => None end).
  { intros s. unfold ts2, gatherWide. rewrite nth_error_map', nth_error_combine. destruct (nth_error ts1 s), (nth_error ws' s); reflexivity. }
  assert (F2 : Forall2 (Forall2 (Forall2 (fun t t' => sameKind t t' /\ forall r, 0 <= r < zprod (yProcs y) -> exists c, combinedTask (yLevels y) (map (localTask y r) (concat (concat ts1))) (localTask y r t) c /\ sData t' r = cValues c))) ts1 ts2).
  { apply Forall2_from_nth. intros s. rewrite N2. destruct (nth_error ts1 s) as [t1|] eqn:Es; auto. destruct (ST s t1 Es) as (ps' & Eps' & _ & G). rewrite Eps'.
    exact (gather_spec (fun r t c => combinedTask (yLevels y) (map (localTask y r) (concat (concat ts1))) (localTask y r t) c) t1 (map pGroups ps') (zprod (yProcs y)) G). }
  assert (K2 : Forall2 sameTasks ts1 ts2) by (eapply Forall2_imp2; [|exact F2]; intros a b; apply sameTasks_of).
  assert (TI : tasksIn ws' = processTasks y ts2).
  { apply list_ext. intros s. unfold tasksIn. rewrite nth_error_map', processTasks_nth, N2. destruct (nth_error ts1 s) as [t1|] eqn:Es.
    - destruct (ST s t1 Es) as (ps' & Eps' & LP & G). rewrite Eps'. cbn [option_map]. f_equal. apply list_ext. intros p. rewrite !nth_error_map', zrange_nth_error. destruct (Z.ltb_spec (Z.of_nat p) (zprod (yProcs y))) as [Hp|Hp].
      + destruct (nth_error_lt ps' p ltac:(unfold ranks in LP; lia)) as (pr' & Epr'). rewrite Epr'. cbn [option_map]. f_equal.
        assert (NG : nth (Z.to_nat (Z.of_nat p)) (map pGroups ps') [] = pGroups pr') by (rewrite Nat2Z.id; apply nth_error_nth; rewrite nth_error_map'; now rewrite Epr').
        rewrite <- NG. apply (gather_local y t1 (map pGroups ps') (zprod (yProcs y)) (Z.of_nat p)); [lia|]. eapply Forall2_imp2; [|exact (G (Z.of_nat p) ltac:(lia))]. intros us g' X. eapply Forall2_imp2; [|exact X]. intros t c Q. exact (combinedTask_solved _ _ _ _ Q).
      + destruct (nth_error ps' p) eqn:Epr'; auto. assert (p < length ps')%nat by (apply nth_error_Some; congruence). unfold ranks in LP. lia.
    - apply nth_error_None in Es. rewrite <- LL in Es. apply nth_error_None in Es. rewrite Es. reflexivity. }
  destruct (shaped_back y ts2 ws' TI) as [SH2 LP2].
  assert (R2 : reachableChunked esz (yLevels y) (ranks y) fuel conf (processTasks y tasks) ws') by (apply (chunked_combine _ _ _ _ _ _ (localProcs y W1) ws' conf' olds); auto).
  assert (A2 : Forall2 sameTasks tasks ts2) by (now apply (sameAll_trans _ ts1)).
  assert (W2' : Forall (wfTask y) (concat (concat ts2))) by (apply (sameTasks_wf y (concat tasks)); [now apply sameAll_concat|exact HT]).
  destruct (sweepSystems_spec y true staleD ts2 HY W2') as (ts3 & E3 & F3). rewrite E3. exists {| wTasks := ts3; wProcs := ws' |}. split; auto. cbn [wTasks wProcs].
  assert (K3 : Forall2 sameTasks ts2 ts3) by (eapply Forall2_imp2; [|exact F3]; intros a b; apply sameTasks_of).
  split; [|split].
  - apply (chunkedSys_solve {| wTasks := ts2; wProcs := ws' |} ts3); auto. split; [|split]; cbn [wTasks wProcs]; auto. now rewrite LP2.
  - apply (sameAll_trans _ ts1); auto. now apply (sameAll_trans _ ts2).
  - apply (steps_combined y (concat ts) (concat ts1) (concat ts2) (concat ts3)); auto; now apply Forall2_concat'.
Qed.

Lemma chunkedReachable_inv : forall W, chunkedReachable y esz fuel conf tasks W -> chunkedSysInv W.
Proof.
  intros W R. induction R as [W E|W ts R IH F|W W' conf' olds sH sD R IH HC E].
  - destruct chunkedSys_start as (W0 & E0 & _ & I). congruence.
  - now apply chunkedSys_solve.
  - destruct (chunkedSys_combine W conf' olds sH sD IH HC) as (W0 & E0 & I & _). congruence.
Qed.
End ChunkedSystem.

(** ** C107 *)

(** The start of all systems succeeds and leaves the tasks as they are. *)
Theorem C107_start : forall y esz conf tasks, wfChunked y conf tasks -> exists W, startChunkedSystem y esz conf tasks = Some W /\ wTasks W = tasks.
Proof. intros y esz conf tasks HW. destruct (chunkedSys_start y esz 0 conf tasks HW) as (W & A & B & _). eauto. Qed.

(** In every state that can be reached the combination succeeds, and every task of every system then holds, at every point,
    the values of the combined hierarchical coefficients of the tasks of all systems. *)
Theorem C107_combination : forall y esz fuel conf tasks W conf' olds staleH staleD, wfChunked y conf tasks -> chunkedReachable y esz fuel conf tasks W ->
  confsFit y fuel conf conf' olds tasks ->
  exists W', combineChunkedSystem y esz conf' fuel olds staleH staleD W = Some W' /\ Forall2 sameTasks (wTasks W) (wTasks W') /\
    Forall2 (combinedSys y (concat (concat (wTasks W)))) (concat (concat (wTasks W))) (concat (concat (wTasks W'))).
Proof.
  intros y esz fuel conf tasks W conf' olds sH sD HW R HC. pose proof (chunkedReachable_inv y esz fuel conf tasks HW W R) as I.
  destruct (chunkedSys_combine y esz fuel conf tasks HW W conf' olds sH sD I HC) as (W' & A & _ & B & C). eauto.
Qed.

Lemma chunked_wf : forall y esz fuel conf tasks W, wfChunked y conf tasks -> chunkedReachable y esz fuel conf tasks W -> Forall (wfTask y) (concat (concat (wTasks W))).
Proof.
  intros y esz fuel conf tasks W HW R. destruct (chunkedReachable_inv y esz fuel conf tasks HW W R) as (A & _). pose proof HW as ((_ & HT & _) & _).
  apply (sameTasks_wf y (concat tasks)); auto. now apply sameAll_concat.
Qed.

(** One system with all the tasks, whatever its groups, processes, decomposition and variant, gets the same values. *)
Theorem C107_as_one_system : forall y esz fuel conf tasks W conf' olds staleH staleD W1 y' v esz' tasks' S chunk order staleH' staleD' S1 us,
  sameProblem y y' -> wfChunked y conf tasks -> wfSystem y' v tasks' -> chunkedReachable y esz fuel conf tasks W -> sysReachable y' v esz' tasks' S ->
  confsFit y fuel conf conf' olds tasks -> 0 < chunk < 2 ^ 31 -> allOrders y' S order ->
  Permutation us (concat (sTasks S)) -> Forall2 (sameFunction y y') (concat (concat (wTasks W))) us ->
  combineChunkedSystem y esz conf' fuel olds staleH staleD W = Some W1 -> combineSystem y' v esz' chunk order staleH' staleD' S = Some S1 ->
  forall i k t t1 u u1, nth_error (concat (concat (wTasks W))) i = Some t -> nth_error (concat (concat (wTasks W1))) i = Some t1 ->
    nth_error (concat (sTasks S)) k = Some u -> nth_error (concat (sTasks S1)) k = Some u1 -> sameFunction y y' t u -> sameFunction y y' t1 u1.
Proof.
  intros y esz fuel conf tasks W conf' olds sH sD W1 y' v esz' tasks' S chunk order sH' sD' S1 us SP HW HS R R' HC HK HO PM F E E'.
  destruct (C107_combination y esz fuel conf tasks W conf' olds sH sD HW R HC) as (X & EX & _ & FX). rewrite E in EX. injection EX as <-.
  destruct (combine_sys y' v esz' tasks' S chunk order sH' sD' HS R' HK HO) as (Z & EZ & _ & _ & FZ). rewrite E' in EZ. injection EZ as <-.
  apply (combined_sameFunction y y' _ _ _ _ us); auto; [exact (proj1 (proj1 HW))|exact (chunked_wf y esz fuel conf tasks W HW R)].
Qed.

(** With hat functions, values on which the tasks of all systems agree stay as they are, if the coefficients of all systems
    together sum to one on every subspace. *)
Theorem C107_common_values_kept : forall y esz fuel conf tasks W conf' olds staleH staleD, wfChunked y conf tasks -> hatSetup y -> chunkedReachable y esz fuel conf tasks W ->
  confsFit y fuel conf conf' olds tasks -> unitySys y (concat (concat (wTasks W))) -> fitTogether y (concat (concat (wTasks W))) ->
  exists W', combineChunkedSystem y esz conf' fuel olds staleH staleD W = Some W' /\ Forall2 sameTasks (wTasks W) (wTasks W') /\
    Forall2 (sameValuesSys y) (concat (concat (wTasks W))) (concat (concat (wTasks W'))).
Proof.
  intros y esz fuel conf tasks W conf' olds sH sD HW HH R HC HU HF. destruct (C107_combination y esz fuel conf tasks W conf' olds sH sD HW R HC) as (W' & E & K & F).
  exists W'. split; auto. split; auto. pose proof (chunked_wf y esz fuel conf tasks W HW R) as WT. pose proof HW as ((HY & _) & _).
  apply (combined_kept y (concat (concat (wTasks W)))); auto using hat_invertible. rewrite Forall_forall in WT. intros t u w Ht Hu Hw _ V.
  destruct (sameIndex_point y t u w HY (WT t Ht) (WT u Hu) Hw V) as (P & SP). symmetry. apply (surplus_agree y t u); auto.
Qed.

(** In particular the grids of a combination scheme, distributed to the systems in any way, keep the samples of a function. *)
Theorem C107_scheme : forall y esz fuel conf tasks W conf' olds staleH staleD f lmin lmax s, wfChunked y conf tasks -> hatSetup y -> chunkedReachable y esz fuel conf tasks W ->
  confsFit y fuel conf conf' olds tasks -> Forall2 Z.le lmin lmax -> lmin <> [] -> Forall (fun x => 1 <= x) lmin -> schemeOf lmin lmax s -> sysTasksOf s (concat (concat tasks)) ->
  (forall t w, In t (concat (concat (wTasks W))) -> isPoint y t w -> valueAt y t w = f (coordinates y (sLevel t) w)) ->
  exists W', combineChunkedSystem y esz conf' fuel olds staleH staleD W = Some W' /\ Forall2 sameTasks (wTasks W) (wTasks W') /\
    forall t w, In t (concat (concat (wTasks W'))) -> isPoint y t w -> valueAt y t w = f (coordinates y (sLevel t) w).
Proof.
  intros y esz fuel conf tasks W conf' olds sH sD f lmin lmax s HW HH R HC F N P HS TO HF. pose proof HW as ((HY & HT & _) & _). pose proof (chunked_wf y esz fuel conf tasks W HW R) as WT.
  destruct (chunkedReachable_inv y esz fuel conf tasks HW W R) as (A & _). rewrite Forall_forall in WT.
  destruct (C107_common_values_kept y esz fuel conf tasks W conf' olds sH sD HW HH R HC) as (W' & E & K & G).
  - apply (scheme_unitySys y lmin lmax s); auto; [now apply Forall_forall|]. apply (sameTasks_scheme s (concat tasks)); auto. now apply sameAll_concat.
  - intros t u Ht Hu w w' Hw Hw' SP. rewrite !HF by auto. f_equal. unfold coordinates. apply map_ext_in. intros k Hk. apply dims_In in Hk. specialize (SP k Hk).
    destruct (WT t Ht) as (_ & LT & _). destruct (WT u Hu) as (_ & LU & _). specialize (LT k Hk). specialize (LU k Hk).
    assert (NZ : forall L, 0 <= L -> toQc (2 ^ L) <> 0%Qc).
    { intros L HL. pose proof (pow2_pos L HL). change 0%Qc with (toQc 0). intros X. apply toQc_inj in X. lia. }
    apply (f_equal toQc) in SP. rewrite !toQc_mul in SP.
    pose proof (NZ (nth k (sLevel t) 0) ltac:(lia)). pose proof (NZ (nth k (sLevel u) 0) ltac:(lia)).
    set (a := toQc (2 ^ nth k (sLevel t) 0)) in *. set (b := toQc (2 ^ nth k (sLevel u) 0)) in *.
    set (p := toQc (gridPos _ (nth k w 0))) in *. set (q := toQc (gridPos _ (nth k w' 0))) in *.
    transitivity (p * b / (a * b))%Qc; [field; split; auto|]. rewrite SP. field. split; auto.
  - exists W'. split; auto. split; auto. intros t' w Ht' Hw. destruct (Forall2_In_r _ _ _ _ G Ht') as (t & Ht & (B1 & _ & B3)). rewrite B1 in *. assert (Hw' : isPoint y t w) by (unfold isPoint in *; now rewrite B1 in Hw).
    rewrite (B3 w Hw'). now apply HF.
Qed.

(** A second combination right after the first changes nothing. *)
Theorem C107_second_combination : forall y esz fuel conf tasks W W1 conf1 olds1 staleH staleD conf2 olds2 staleH' staleD', wfChunked y conf tasks -> invertible y ->
  chunkedReachable y esz fuel conf tasks W -> unitySys y (concat (concat (wTasks W))) -> confsFit y fuel conf conf1 olds1 tasks ->
  combineChunkedSystem y esz conf1 fuel olds1 staleH staleD W = Some W1 -> confsFit y fuel conf conf2 olds2 tasks ->
  exists W2, combineChunkedSystem y esz conf2 fuel olds2 staleH' staleD' W1 = Some W2 /\ Forall2 sameTasks (wTasks W1) (wTasks W2) /\
    Forall2 (sameValuesSys y) (concat (concat (wTasks W1))) (concat (concat (wTasks W2))).
Proof.
  intros y esz fuel conf tasks W W1 conf1 olds1 sH sD conf2 olds2 sH' sD' HW HI R HU HC1 E HC2.
  destruct (C107_combination y esz fuel conf tasks W conf1 olds1 sH sD HW R HC1) as (X & EX & ST & F). rewrite E in EX. injection EX as <-.
  assert (R1 : chunkedReachable y esz fuel conf tasks W1) by (exact (csys_combine y esz fuel conf tasks W W1 conf1 olds1 sH sD R HC1 E)).
  destruct (C107_combination y esz fuel conf tasks W1 conf2 olds2 sH' sD' HW R1 HC2) as (W2 & E2 & K2 & F2). exists W2. split; auto. split; auto.
  pose proof HW as ((HY & _) & _). pose proof (chunked_wf y esz fuel conf tasks W HW R) as WT. pose proof (chunked_wf y esz fuel conf tasks W1 HW R1) as WT1. rewrite Forall_forall in WT.
  set (A := concat (concat (wTasks W))) in *. set (A1 := concat (concat (wTasks W1))) in *.
  apply (combined_kept y A1); auto.
  - intros l t1 Hl Ht1 LE. destruct (Forall2_In_r _ _ _ _ F Ht1) as (t & Ht & (L1 & _ & _)).
    rewrite <- (HU l t Hl Ht) by (now rewrite <- L1).
    assert (F' : Forall2 (fun t t' => sLevel t' = sLevel t /\ sCoeff t' = sCoeff t) A A1) by (eapply Forall2_imp2; [|exact F]; intros a b (A0 & B0 & _); auto).
    clear - F'. clearbody A A1. induction F' as [|a b la lb (X & Y) G IH]; auto. cbn [map]. change (qsum (?a :: ?b)) with (a + qsum b)%Qc. now rewrite IH, X, Y.
  - intros t1 u1 w Ht1 Hu1 Hw IL V.
    destruct (Forall2_In_r _ _ _ _ F Ht1) as (t & Ht & (P1 & _ & P3)). destruct (Forall2_In_r _ _ _ _ F Hu1) as (u & Hu & (B1 & _ & B3)).
    rewrite P1, B1 in *. assert (Hw' : isPoint y t w) by (unfold isPoint in *; now rewrite P1 in Hw). clear Hw.
    destruct (sameIndex_point y t u w HY (WT t Ht) (WT u Hu) Hw' V) as (P & SP). set (w' := sameIndex y (sLevel t) (sLevel u) w) in *.
    assert (C : forall a a1 x, In a A -> (forall z, isPoint y a z -> valueAt y a1 z = nodal y (sLevel a) (combinedAt y A (fun u0 => surplus y (sLevel u0) (valueAt y u0)) a) z) ->
        isPoint y a x -> surplus y (sLevel a) (valueAt y a1) x = combinedAt y A (fun u0 => surplus y (sLevel u0) (valueAt y u0)) a x).
    { intros a a1 x Ha HA Hx. transitivity (surplus y (sLevel a) (nodal y (sLevel a) (combinedAt y A (fun u0 => surplus y (sLevel u0) (valueAt y u0)) a)) x).
      - unfold surplus. apply surplus_ext; auto.
      - now apply (roundtrip_sys y a true); auto. }
    rewrite (C t t1 w Ht P3 Hw'), (C u u1 w' Hu B3 P). unfold combinedAt. cbv zeta.
    rewrite (samePoint_level y t u w w') by auto. destruct (in_dec _ _ _) as [_|Y]; [|contradiction]. f_equal. apply map_ext_in. intros z Hz.
    rewrite (samePoint_index y t u z w w') by auto. reflexivity.
Qed.

(** With conservative bases the combined integral over all systems stays, and every task of every system gets it. *)
Theorem C107_mass : forall y esz fuel conf tasks W conf' olds staleH staleD, wfChunked y conf tasks -> chunkedReachable y esz fuel conf tasks W ->
  confsFit y fuel conf conf' olds tasks -> conservativeSetup y -> coarseCombined y (concat (concat tasks)) -> unitySys y (concat (concat tasks)) ->
  exists W', combineChunkedSystem y esz conf' fuel olds staleH staleD W = Some W' /\
    (forall t', In t' (concat (concat (wTasks W'))) -> massOf y t' = qsum (map (fun u => sCoeff u * massOf y u)%Qc (concat (concat (wTasks W))))) /\
    qsum (map (fun u => sCoeff u * massOf y u)%Qc (concat (concat (wTasks W')))) = qsum (map (fun u => sCoeff u * massOf y u)%Qc (concat (concat (wTasks W)))).
Proof.
  intros y esz fuel conf tasks W conf' olds sH sD HW R HC CS CM HU. destruct (C107_combination y esz fuel conf tasks W conf' olds sH sD HW R HC) as (W' & E & K & F).
  exists W'. split; auto. pose proof (chunked_wf y esz fuel conf tasks W HW R) as WT. pose proof HW as ((HY & HT & _) & _). destruct (chunkedReachable_inv y esz fuel conf tasks HW W R) as (A & _).
  apply sameAll_concat in A, K. pose proof (coarse_same y _ _ A CM) as CM'.
  assert (HM : forall t', In t' (concat (concat (wTasks W'))) -> massOf y t' = qsum (map (fun u => sCoeff u * massOf y u)%Qc (concat (concat (wTasks W))))).
  { intros t' Ht'. destruct (In_nth_error _ _ Ht') as [i Hi]. pose proof (Forall2_to_nth _ _ _ F i) as X. rewrite Hi in X. destruct (nth_error (concat (concat (wTasks W))) i) as [t|] eqn:Et; [|contradiction].
    apply (mass_combined y (concat (concat (wTasks W))) t); auto. eapply nth_error_In; eauto. }
  split; auto. rewrite (qsum_const sCoeff (massOf y) _ _ HM).
  assert (EC : forall a b, sameTasks a b -> map sCoeff (concat b) = map sCoeff (concat a)).
  { intros a b X. apply Forall2_concat' in X. revert X. generalize (concat a) (concat b). induction 1 as [|t t' l l' [d ->] X IH]; auto. cbn [map]. now rewrite IH. }
  rewrite (EC _ _ K), (EC _ _ A). destruct (concat (concat tasks)) as [|t0 r0] eqn:ET.
  - assert (concat (concat (wTasks W)) = []) as ->; [|cbn; ring]. pose proof (EC _ _ A) as X. rewrite ET in X. destruct (concat (concat (wTasks W))); [auto|discriminate].
  - rewrite <- ET in *. rewrite (unity_one y (concat (concat tasks))); auto; [ring|rewrite ET; discriminate].
Qed.

(** With the tasks of two systems every process has points that go to the files; so the hypothesis of C106 is met. *)
Theorem C107_every_process_shares : forall y conf tasks p, wfChunked y conf tasks -> (p < ranks y)%nat -> 0 < sharedPoints (yLevels y) (processTasks y tasks) p.
Proof. intros y conf tasks p H Hp. exact (proj2 (proj2 (wfChunked_fits y conf tasks H)) p Hp). Qed.

(** The variant sparseGridReduce (C93) gives the same values, whatever the distribution of the tasks to systems and groups, the decomposition and the
    files. *)
Theorem C107_as_sparse_grid_reduce : forall y esz fuel conf tasks W conf' olds staleH staleD W1 y' esz' fuel' conf1 tasks' V conf1' olds' staleH' staleD' V1 us,
  sameProblem y y' -> wfChunked y conf tasks -> wfWide y' conf1 tasks' -> chunkedReachable y esz fuel conf tasks W -> wideReachable y' esz' fuel' conf1 tasks' V ->
  confsFit y fuel conf conf' olds tasks -> confsFit y' fuel' conf1 conf1' olds' tasks' ->
  Permutation us (concat (concat (wTasks V))) -> Forall2 (sameFunction y y') (concat (concat (wTasks W))) us ->
  combineChunkedSystem y esz conf' fuel olds staleH staleD W = Some W1 -> combineWideSystem y' esz' conf1' fuel' olds' staleH' staleD' V = Some V1 ->
  forall i k t t1 u u1, nth_error (concat (concat (wTasks W))) i = Some t -> nth_error (concat (concat (wTasks W1))) i = Some t1 ->
    nth_error (concat (concat (wTasks V))) k = Some u -> nth_error (concat (concat (wTasks V1))) k = Some u1 -> sameFunction y y' t u -> sameFunction y y' t1 u1.
Proof.
  intros y esz fuel conf tasks W conf' olds sH sD W1 y' esz' fuel' conf1 tasks' V conf1' olds' sH' sD' V1 us SP HW HV R R' HC HC' PM F E E'.
  destruct (C107_combination y esz fuel conf tasks W conf' olds sH sD HW R HC) as (X & EX & _ & FX). rewrite E in EX. injection EX as <-.
  destruct (C93_combination y' esz' fuel' conf1 tasks' V conf1' olds' sH' sD' HV R' HC') as (Z & EZ & _ & FZ). rewrite E' in EZ. injection EZ as <-.
  apply (combined_sameFunction y y' _ _ _ _ us); auto; [exact (proj1 (proj1 HW))|exact (chunked_wf y esz fuel conf tasks W HW R)].
Qed.

(** ** Examples *)
Lemma exWide_share : forall y G1 G2 G3, In [1; 1] (yLevels y) -> shareTasks y (exWideTasks y G1 G2 G3).
Proof.
  intros y G1 G2 G3 HI. exists 0%nat, 1%nat. do 2 eexists. exists (exTask y [2; 1] (toQc 1) G1), (exTask y [1; 2] (toQc 1) G3).
  split; [lia|]. split; [reflexivity|]. split; [reflexivity|]. split; [now left|]. split; [now left|]. cbn [exTask sLevel]. intros l A B.
  inversion A as [|a b l1 l2 A1 A2]; subst. inversion A2 as [|a' b' l3 l4 A3 A4]; subst. inversion A4; subst. inversion B as [|a2 b2 l5 l6 B1 B2]; subst.
  assert (a = 1) by lia. assert (a' = 1) by lia. subst. exact HI.
Qed.
Example C107_ex_hyps : forall G1 G2 G3, wfChunked exSetup exConf (exWideTasks exSetup G1 G2 G3) /\ confsFit exSetup 10 exConf exConf exOld (exWideTasks exSetup G1 G2 G3) /\
  hatSetup exSetup /\ sysTasksOf (classicalScheme [1; 1] [2; 2]) (concat (concat (exWideTasks exSetup G1 G2 G3))).
Proof.
  intros G1 G2 G3. destruct (C93_ex_hyps G1 G2 G3) as (A & B & C & D). split; [|auto]. split; [exact A|]. split.
  - intros ts [<-|[<-|[]]]; cbn; lia.
  - apply exWide_share. now left.
Qed.
Definition exChunkedResult (y : Setup) : option (list (list (list (list Q))) * list Q) :=
  match startChunkedSystem y 8 exConf (exWideTasks y (exNum 1) (exNum 2) (exNum 5)) with
  | None => None
  | Some W => option_map (fun W' => (exWideValues y W', map (fun t => this (massOf y t)) (concat (concat (wTasks W')))))
                (combineChunkedSystem y 8 exConf 10 exOld (fun _ => exStale) (fun _ => exStale) W)
  end.
(** The values are those of [C93_ex]. *)
Example C107_ex : option_map fst (exChunkedResult exSetup) = Some
    [[[[4; 7; 16; 31; 52; 4; -7 # 2; -5; -1 # 2; 10; 4; -14; -26; -32; -32]]; [[4; 16; 52; 4; -5; 10; 4; -26; -32]]];
     [[]; [[4; 16; 52; 4; 11 # 2; 31; 4; -5; 10; 4; -31 # 2; -11; 4; -26; -32]]]]%Q.
Proof. vm_compute. reflexivity. Qed.
Example C107_ex_mass_hyps : let ts := exWideTasks exSetupFW (exNum 1) (exNum 2) (exNum 5) in
  wfChunked exSetupFW exConf ts /\ confsFit exSetupFW 10 exConf exConf exOld ts /\ conservativeSetup exSetupFW /\ coarseCombined exSetupFW (concat (concat ts)) /\ unitySys exSetupFW (concat (concat ts)).
Proof.
  intros ts. destruct C93_ex_mass_hyps as (A & B). split; [|exact B]. split; [exact A|]. split.
  - intros us [<-|[<-|[]]]; cbn; lia.
  - apply exWide_share. now left.
Qed.
Example C107_ex_mass : option_map snd (exChunkedResult exSetupFW) = Some [-1 # 2; -1 # 2; -1 # 2]%Q.
Proof. vm_compute. reflexivity. Qed.

Print Assumptions C107_start.
Print Assumptions C107_combination.
Print Assumptions C107_every_process_shares.
Print Assumptions C107_as_one_system.
Print Assumptions C107_as_sparse_grid_reduce.
Print Assumptions C107_common_values_kept.
Print Assumptions C107_scheme.
Print Assumptions C107_second_combination.
Print Assumptions C107_mass.
