(** Proofs about WideSystemModel.v. *)
From Verif Require Import Base TensorModel TensorProofs PartitionModel PartitionProofs DecompModel DecompProofs DofModel DofProofs Level1dModel
  Level1dProofs LevelSetsModel LevelSetsProofs SubspaceModel SubspaceProofs SubspaceProps CombiSchemeModel CombiSchemeProofs Hier1dModel Hier1dProofs HierMassProofs Hier1dProps
  DistHierModel DistHierProofs DistExchangeProofs DistPoleProofs HierNDModel HierNDProofs HierLinProofs HierNDProps
  SparseGridModel SparseGridProofs CombineModel SparseTransferProofs SparseGridProps ReduceModel ReduceProofs VoteProofs SubspaceReduceProofs
  CombiStepModel CombiStepProofs CombiInitProofs CombiStepProps FileModel FileProps ExchangeModel ExchangeProps
  WideModel WideProofs WideStepProofs WideInitProofs WideProps SystemModel SystemProofs SystemProps WideSystemModel.
From Coq Require Import QArith Qcanon Permutation.
Open Scope Z_scope.
Ltac Zify.zify_post_hook ::= idtac.

(** ** The three steps of a combination put together *)
Section Steps.
Variables (y : Setup) (ts ts1 ts2 ts3 : list (list SysTask)).
Hypothesis HY : wfSetup y.
Hypothesis WS : Forall (wfTask y) (concat ts).
Hypothesis F1 : Forall2 (Forall2 (fun t t' => sameKind t t' /\ represents (taskCfg y (sLevel t)) (opAll (taskCfg y (sLevel t)) false (dims y) (valueAt y t)) (sData t'))) ts ts1.
Hypothesis F2 : Forall2 (Forall2 (fun t t' => sameKind t t' /\ forall r, 0 <= r < zprod (yProcs y) ->
  exists c, combinedTask (yLevels y) (map (localTask y r) (concat ts1)) (localTask y r t) c /\ sData t' r = cValues c)) ts1 ts2.
Hypothesis F3 : Forall2 (Forall2 (fun t t' => sameKind t t' /\ represents (taskCfg y (sLevel t)) (opAll (taskCfg y (sLevel t)) true (dims y) (valueAt y t)) (sData t'))) ts2 ts3.

Lemma sameTasks_of : forall (P : SysTask -> SysTask -> Prop) a b, Forall2 (Forall2 (fun t t' => sameKind t t' /\ P t t')) a b -> sameTasks a b.
Proof. intros P a b F. eapply Forall2_imp2; [|exact F]. intros x z G. eapply Forall2_imp2; [|exact G]. cbn. tauto. Qed.

Lemma steps_combined : Forall2 (combinedSys y (concat ts)) (concat ts) (concat ts3).
Proof.
  pose proof (proj1 (Forall_forall _ _) WS) as WS'.
  pose proof (sameTasks_of _ _ _ F1) as K1. pose proof (sameTasks_of _ _ _ F2) as K2.
  pose proof (sameTasks_wf y _ _ K1 WS) as W1. pose proof (proj1 (Forall_forall _ _) W1) as W1'.
  assert (V1 : forall u, In u (concat ts1) -> represents (taskCfg y (sLevel u)) (valueAt y u) (sData u)).
  { intros u Hu. apply C19_state_is_grid_function. apply taskCfg_wf; auto. }
  assert (FA : Forall2 (fun u u' => sLevel u' = sLevel u /\ sCoeff u' = sCoeff u /\ forall w, isPoint y u w -> valueAt y u' w = surplus y (sLevel u) (valueAt y u) w) (concat ts) (concat ts1)).
  { assert (F1c : Forall2 (fun u u' => wfTask y u /\ sameKind u u' /\ represents (taskCfg y (sLevel u)) (opAll (taskCfg y (sLevel u)) false (dims y) (valueAt y u)) (sData u')) (concat ts) (concat ts1)).
    { pose proof (Forall2_concat' _ _ _ F1) as F1'. clear - F1' WS'. induction F1' as [|a b l l' (A & C) F IH]; constructor; [split; [apply WS'; now left|auto]|]. apply IH. intros x Hx. apply WS'. now right. }
    eapply Forall2_imp2; [|exact F1c]. intros u u' (WU & [d ->] & RU). split; [reflexivity|]. split; [reflexivity|]. intros w Hw.
    apply (represents_box (taskCfg y (sLevel u)) _ _ (taskCfg_wf y u HY WU) RU w). exact Hw. }
  assert (F12 : Forall2 (Forall2 (fun t t2 => wfTask y t /\ sameKind t t2 /\ represents (taskCfg y (sLevel t)) (combinedAt y (concat ts) (fun u => surplus y (sLevel u) (valueAt y u)) t) (sData t2))) ts ts2).
  { apply Forall2_from_nth. intros g. pose proof (Forall2_to_nth _ _ _ F1 g) as P1. pose proof (Forall2_to_nth _ _ _ F2 g) as P2.
    destruct (nth_error ts g) as [a|] eqn:Ea, (nth_error ts1 g) as [b|] eqn:Eb, (nth_error ts2 g) as [c|] eqn:Ec; try contradiction; auto.
    apply Forall2_from_nth. intros k. pose proof (Forall2_to_nth _ _ _ P1 k) as Q1. pose proof (Forall2_to_nth _ _ _ P2 k) as Q2.
    destruct (nth_error a k) as [t|] eqn:Et, (nth_error b k) as [t1|] eqn:Et1, (nth_error c k) as [t2|] eqn:Et2; try contradiction; auto.
    assert (Ht : In t (concat ts)) by (apply in_concat; exists a; split; eapply nth_error_In; eauto).
    assert (Ht1 : In t1 (concat ts1)) by (apply in_concat; exists b; split; eapply nth_error_In; eauto).
    destruct Q1 as (K & RP). destruct Q2 as (K' & X). split; [auto|]. split; [now apply (sameKind_trans t t1)|].
    assert (EL1 : sLevel t1 = sLevel t) by (destruct K as [d ->]; reflexivity). assert (EL2 : sLevel t2 = sLevel t1) by (destruct K' as [d ->]; reflexivity).
    pose proof (combined_represents y (valueAt y) (concat ts1) t1 t2 HY W1 V1 Ht1 EL2 X) as CR. rewrite EL2, EL1 in CR.
    intros r v0 Hr Hv0. rewrite (CR r v0 Hr Hv0).
    assert (WT : wfTask y t) by auto. pose proof (taskCfg_wf y t HY WT) as HW.
    assert (IB : isPoint y t (vadd (hLower (taskCfg y (sLevel t)) r) v0)).
    { exact (local_inside (taskCfg y (sLevel t)) r v0 HW Hr Hv0). }
    apply (combinedAt_ext y (concat ts) (concat ts1) (fun u => surplus y (sLevel u) (valueAt y u)) (valueAt y) t t1); auto.
    intros w Hw. destruct K as [d ->]. apply (represents_box (taskCfg y (sLevel t)) _ _ HW RP w). exact Hw. }
  assert (F13 : Forall2 (Forall2 (combinedSys y (concat ts))) ts ts3); [|now apply Forall2_concat'].
  apply Forall2_from_nth. intros g. pose proof (Forall2_to_nth _ _ _ F12 g) as P1. pose proof (Forall2_to_nth _ _ _ F3 g) as P2.
  destruct (nth_error ts g) as [a|] eqn:Ea, (nth_error ts2 g) as [b|] eqn:Eb, (nth_error ts3 g) as [c|] eqn:Ec; try contradiction; auto.
  apply Forall2_from_nth. intros k. pose proof (Forall2_to_nth _ _ _ P1 k) as Q1. pose proof (Forall2_to_nth _ _ _ P2 k) as Q2.
  destruct (nth_error a k) as [t|] eqn:Et, (nth_error b k) as [t2|] eqn:Et1, (nth_error c k) as [t3|] eqn:Et2; try contradiction; auto.
  destruct Q1 as (WT & K & RP), Q2 as (K' & RP').
  assert (EL2 : sLevel t2 = sLevel t) by (destruct K as [d ->]; reflexivity). rewrite EL2 in RP'. pose proof (taskCfg_wf y t HY WT) as HW.
  assert (BE : boxEq (hSizes (taskCfg y (sLevel t))) (valueAt y t2) (combinedAt y (concat ts) (fun u => surplus y (sLevel u) (valueAt y u)) t)).
  { unfold valueAt at 1. rewrite EL2. apply represents_box; auto. }
  assert (KS : forall k, In k (dims y) -> (k < length (hLevels (taskCfg y (sLevel t))))%nat).
  { intros q Hq. apply dims_In in Hq. cbn [taskCfg hLevels]. destruct WT as (-> & _). auto. }
  pose proof (opAll_ext _ true (dims y) _ _ HW KS BE) as OE. destruct (sameKind_trans _ _ _ K K') as [d3 E3]. subst t3.
  split; [reflexivity|]. split; [reflexivity|]. intros w Hw.
  transitivity (opAll (taskCfg y (sLevel t)) true (dims y) (valueAt y t2) w); [exact (represents_box (taskCfg y (sLevel t)) _ _ HW RP' w Hw)|]. apply OE. exact Hw.
Qed.
End Steps.

(** ** Systems and ranks *)
Definition tasksIn (ws : list (list Proc)) : list (list (list (list Comp))) := map (map (fun pr => map gTasks (pGroups pr))) ws.
Definition shaped (y : Setup) (ts : list (list SysTask)) (ps : list Proc) : Prop := length ps = Z.to_nat (zprod (yProcs y)) /\ Forall (fun pr => length (pGroups pr) = length ts) ps.

Lemma list_ext : forall {A} (l l' : list A), (forall k, nth_error l k = nth_error l' k) -> l = l'.
Proof.
  intros A l. induction l as [|a l IH]; intros [|b l'] H; auto; [specialize (H 0%nat); discriminate|specialize (H 0%nat); discriminate|].
  pose proof (H 0%nat) as H0. injection H0 as <-. f_equal. apply IH. intros k. exact (H (S k)).
Qed.
Lemma nth_error_combine : forall {A B} (l : list A) (l' : list B) k, nth_error (combine l l') k = match nth_error l k, nth_error l' k with Some a, Some b => Some (a, b) | _, _ => None end.
Proof. intros A B l. induction l as [|a l IH]; intros [|b l'] [|k]; cbn [combine nth_error]; auto. destruct (nth_error l k); auto. Qed.
Lemma zrange_nth_error : forall n k, nth_error (zrange 0 n) k = if Z.of_nat k <? n then Some (Z.of_nat k) else None.
Proof.
  intros n k. unfold zrange. destruct (Z.ltb_spec (Z.of_nat k) n).
  - rewrite (nth_error_nth' _ 0) by (rewrite zseq_length; lia). f_equal. rewrite zseq_nth by lia. lia.
  - apply nth_error_None. rewrite zseq_length. lia.
Qed.

Lemma localProc_tasks : forall y ts p pr, length (pGroups pr) = length ts -> map gTasks (pGroups (localProc y ts (p, pr))) = map (map (localTask y (Z.of_nat p))) ts.
Proof.
  intros y ts p pr. unfold localProc. cbn [pGroups fst snd]. rewrite map_map. generalize (pGroups pr). revert ts. induction ts as [|t ts IH]; intros [|g gs] L; try discriminate; auto.
  cbn [map combine fst snd withTasks gTasks]. f_equal. apply IH. now injection L.
Qed.
Lemma localProc_fix : forall y ts p pr, map gTasks (pGroups pr) = map (map (localTask y (Z.of_nat p))) ts -> localProc y ts (p, pr) = pr.
Proof.
  intros y ts p [gs e]. unfold localProc. cbn [pGroups pExtra fst snd]. intros E. f_equal. revert ts E. induction gs as [|[gt gd gc] gs IH]; intros [|t ts] E; try discriminate; auto.
  cbn [map] in E. injection E as E1 E2. cbn [map combine fst snd withTasks gTasks gDsg gComms]. cbn [gTasks] in E1. rewrite E1. f_equal. now apply IH.
Qed.

Lemma localProcs_nth : forall y W s, nth_error (localProcs y W) s = match nth_error (wTasks W) s, nth_error (wProcs W) s with Some ts, Some ps => Some (map (localProc y ts) (indexed ps)) | _, _ => None end.
Proof. intros y W s. unfold localProcs. rewrite nth_error_map', nth_error_combine. destruct (nth_error (wTasks W) s), (nth_error (wProcs W) s); reflexivity. Qed.
Lemma map_localProc_nth : forall y ts ps p, nth_error (map (localProc y ts) (indexed ps)) p = match nth_error ps p with Some pr => Some (localProc y ts (p, pr)) | None => None end.
Proof. intros y ts ps p. rewrite nth_error_map', indexed_nth. destruct (nth_error ps p); reflexivity. Qed.
Lemma processTasks_nth : forall y tasks s, nth_error (processTasks y tasks) s = match nth_error tasks s with Some ts => Some (map (fun r => map (map (localTask y r)) ts) (zrange 0 (zprod (yProcs y)))) | None => None end.
Proof. intros y tasks s. unfold processTasks. rewrite nth_error_map'. destruct (nth_error tasks s); reflexivity. Qed.

Lemma shaped_tasks : forall y ts ps, shaped y ts ps -> map (fun pr => map gTasks (pGroups pr)) (map (localProc y ts) (indexed ps)) = map (fun r => map (map (localTask y r)) ts) (zrange 0 (zprod (yProcs y))).
Proof.
  intros y ts ps [L F]. apply list_ext. intros p. rewrite nth_error_map', map_localProc_nth, nth_error_map', zrange_nth_error. rewrite Forall_forall in F. destruct (nth_error ps p) as [pr|] eqn:E.
  - assert (p < length ps)%nat by (apply nth_error_Some; congruence). destruct (Z.ltb_spec (Z.of_nat p) (zprod (yProcs y))); [|lia]. cbn [option_map]. f_equal. apply localProc_tasks. apply F. now apply nth_error_In in E.
  - apply nth_error_None in E. destruct (Z.ltb_spec (Z.of_nat p) (zprod (yProcs y))); [lia|reflexivity].
Qed.
Lemma shaped_of : forall y ts ps, map (fun pr => map gTasks (pGroups pr)) ps = map (fun r => map (map (localTask y r)) ts) (zrange 0 (zprod (yProcs y))) ->
  shaped y ts ps /\ map (localProc y ts) (indexed ps) = ps.
Proof.
  intros y ts ps E. assert (N : forall p pr, nth_error ps p = Some pr -> map gTasks (pGroups pr) = map (map (localTask y (Z.of_nat p))) ts).
  { intros p pr Ep. assert (X : nth_error (map (fun pr => map gTasks (pGroups pr)) ps) p = Some (map gTasks (pGroups pr))) by (rewrite nth_error_map'; now rewrite Ep).
    rewrite E, nth_error_map', zrange_nth_error in X. destruct (Z.of_nat p <? _); [|discriminate]. cbn in X. congruence. }
  split; [split|].
  - apply (f_equal (@length _)) in E. rewrite !map_length in E. unfold zrange in E. rewrite zseq_length in E. rewrite E. f_equal. lia.
  - apply Forall_forall. intros pr Hpr. apply In_nth_error in Hpr. destruct Hpr as (p & Ep). rewrite <- (map_length gTasks), (N p pr Ep), map_length. reflexivity.
  - apply list_ext. intros p. rewrite map_localProc_nth. destruct (nth_error ps p) as [pr|] eqn:Ep; auto. f_equal. apply localProc_fix. auto.
Qed.
Lemma shaped_all : forall y W, Forall2 (shaped y) (wTasks W) (wProcs W) -> tasksIn (localProcs y W) = processTasks y (wTasks W).
Proof.
  intros y W F. apply list_ext. intros s. unfold tasksIn. rewrite nth_error_map', localProcs_nth, processTasks_nth. pose proof (Forall2_to_nth _ _ _ F s) as X.
  destruct (nth_error (wTasks W) s), (nth_error (wProcs W) s); try contradiction; auto. cbn [option_map]. f_equal. now apply shaped_tasks.
Qed.
Lemma shaped_back : forall y ts ws, tasksIn ws = processTasks y ts -> Forall2 (shaped y) ts ws /\ localProcs y {| wTasks := ts; wProcs := ws |} = ws.
Proof.
  intros y ts ws E. assert (N : forall s, match nth_error ts s, nth_error ws s with Some t, Some ps => shaped y t ps /\ map (localProc y t) (indexed ps) = ps | None, None => True | _, _ => False end).
  { intros s. assert (X : nth_error (tasksIn ws) s = nth_error (processTasks y ts) s) by now rewrite E. unfold tasksIn in X. rewrite nth_error_map', processTasks_nth in X.
    destruct (nth_error ts s), (nth_error ws s); try discriminate; auto. cbn [option_map] in X. apply shaped_of. congruence. }
  split.
  - apply Forall2_from_nth. intros s. specialize (N s). destruct (nth_error ts s), (nth_error ws s); tauto.
  - apply list_ext. intros s. rewrite localProcs_nth. cbn [wTasks wProcs]. specialize (N s). destruct (nth_error ts s), (nth_error ws s); try contradiction; auto. f_equal. tauto.
Qed.

Lemma held_local : forall y W p, Forall2 (shaped y) (wTasks W) (wProcs W) -> Z.of_nat p < zprod (yProcs y) -> allHeld (localProcs y W) p = map (localTask y (Z.of_nat p)) (concat (concat (wTasks W))).
Proof.
  intros y W p F Hp. unfold allHeld, localProcs. destruct W as [ts ws]. cbn [wTasks wProcs] in *. induction F as [|t ps ts ws [L FP] F IH]; auto. cbn [combine map flat_map fst snd]. rewrite IH. cbn [concat]. rewrite concat_app, map_app. f_equal.
  unfold tasksHeld. rewrite map_localProc_nth. destruct (nth_error_lt ps p ltac:(lia)) as (pr & Ep). rewrite Ep. rewrite flat_map_concat_map, localProc_tasks; [now rewrite concat_map|]. rewrite Forall_forall in FP. apply FP. now apply nth_error_In in Ep.
Qed.

Lemma localProcs_solved : forall y ts ts' ws, Forall2 sameTasks ts ts' -> Forall2 (Forall2 solvedProc) (localProcs y {| wTasks := ts; wProcs := ws |}) (localProcs y {| wTasks := ts'; wProcs := ws |}).
Proof.
  intros y ts ts' ws F. apply Forall2_from_nth. intros s. rewrite !localProcs_nth. cbn [wTasks wProcs]. pose proof (Forall2_to_nth _ _ _ F s) as X. destruct (nth_error ts s) as [t|], (nth_error ts' s) as [t'|]; try contradiction; auto.
  destruct (nth_error ws s) as [ps|]; auto. apply Forall2_from_nth. intros p. rewrite !map_localProc_nth. destruct (nth_error ps p) as [pr|]; auto. split; [|reflexivity]. unfold localProc. cbn [pGroups fst snd].
  generalize (pGroups pr). induction X as [|a b l l' H X IH]; intros [|g gs]; cbn [map combine]; constructor; auto. split; [|split; reflexivity]. cbn [withTasks gTasks fst snd].
  clear - H. induction H as [|u u' us us' [d ->] H IH]; constructor; auto. reflexivity.
Qed.

Lemma sweepSystems_spec : forall y de stale tasks, wfSetup y -> Forall (wfTask y) (concat (concat tasks)) ->
  exists tasks', sweepSystems y de stale tasks = Some tasks' /\
    Forall2 (Forall2 (Forall2 (fun t t' => sameKind t t' /\ represents (taskCfg y (sLevel t)) (opAll (taskCfg y (sLevel t)) de (dims y) (valueAt y t)) (sData t')))) tasks tasks'.
Proof.
  intros y de stale tasks HY HW. unfold sweepSystems.
  destruct (mapO_nth (fun s (st : nat * list (list SysTask)) ts' => Forall2 (Forall2 (fun t t' => sameKind t t' /\ represents (taskCfg y (sLevel t)) (opAll (taskCfg y (sLevel t)) de (dims y) (valueAt y t)) (sData t'))) (snd st) ts')
    (fun st => sweepTasks y de (stale (fst st)) (snd st)) (indexed tasks)) as (ts' & E & L & F).
  - intros s [s' ts] Es. rewrite indexed_nth in Es. destruct (nth_error tasks s) as [tsx|] eqn:Et; [|discriminate]. injection Es as <- <-. cbn [fst snd].
    assert (WS : Forall (wfTask y) (concat tsx)).
    { rewrite Forall_forall in *. intros t Ht. apply HW. apply in_concat in Ht. destruct Ht as (g & Hg & Ht). apply in_concat. exists g. split; auto. apply in_concat. exists tsx. split; auto. now apply nth_error_In in Et. }
    destruct (sweepTasks_spec y de (stale s) tsx (valueAt y) HY WS) as (tasks' & E & F).
    { intros t Ht. apply C19_state_is_grid_function. apply taskCfg_wf; auto. rewrite Forall_forall in WS. auto. }
    exists tasks'. split; auto. eapply Forall2_imp2; [|exact F]. intros a b G. eapply Forall2_imp2; [|exact G]. cbn. tauto.
  - exists ts'. split; auto. rewrite indexed_length in L. apply Forall2_from_nth. intros s. destruct (nth_error tasks s) as [ts|] eqn:Es.
    + destruct (F s (s, ts)) as (b & Eb & _ & G); [rewrite indexed_nth; now rewrite Es|]. rewrite Eb. exact G.
    + apply nth_error_None in Es. rewrite <- L in Es. apply nth_error_None in Es. now rewrite Es.
Qed.
