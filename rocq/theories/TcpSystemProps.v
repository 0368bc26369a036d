(** Property C96: a combination of two whole systems over the network. *)
From Verif Require Import Base TensorModel TensorProofs PartitionModel PartitionProofs DecompModel DecompProofs DofModel DofProofs Level1dModel
  Level1dProofs LevelSetsModel LevelSetsProofs LevelSetsProps SubspaceModel SubspaceProofs SubspaceProps CombiSchemeModel CombiSchemeProofs CombiSchemeProps Hier1dModel Hier1dProofs HierMassProofs Hier1dProps
  DistHierModel DistHierProofs DistExchangeProofs DistPoleProofs HierNDModel HierNDProofs HierLinProofs HierNDProps
  SparseGridModel SparseGridProofs CombineModel SparseTransferProofs SparseGridProps ReduceModel ReduceProofs VoteProofs SubspaceReduceProofs
  CombiStepModel CombiStepProofs CombiInitProofs CombiStepProps FileModel FileProps ExchangeModel ExchangeProps
  WideModel WideProofs WideStepProofs WideInitProofs WideProps SystemModel SystemProofs SystemHatProofs SystemProps SystemMassProofs SystemMassProps WideSystemModel WideSystemProofs WideSystemProps
  ThirdLevelModel ThirdLevelProps TcpModel TcpProofs TcpInitProofs TcpProps TcpSystemModel.
From Coq Require Import QArith Qcanon Permutation Relations.
Open Scope Z_scope.
Ltac Zify.zify_post_hook ::= idtac.

(** Two systems with the same decomposition and sparse grid, whatever their numbers of groups and tasks. The sparse grid has less than 2^31 points. *)
Definition wfTcp (y : Setup) (third1 third2 : nat) (ts1 ts2 : list (list SysTask)) : Prop :=
  wfSetup y /\ Forall (wfTask y) (concat ts1 ++ concat ts2) /\ (third1 < length ts1)%nat /\ (third2 < length ts2)%nat /\
  (forall p, (p < ranks y)%nat -> zsum (map (pointsAt [rankTasks y ts1; rankTasks y ts2] p) (yLevels y)) < 2 ^ 31 - 1) /\
  zsum (map (fun p => zsum (map (pointsAt [rankTasks y ts1; rankTasks y ts2] p) (yLevels y))) (seq 0 (ranks y))) < 2 ^ 31.

(** Every process has points to exchange. *)
Definition someExchange (y : Setup) (extra : bool) (ts1 ts2 : list (list SysTask)) : Prop :=
  forall p, (p < ranks y)%nat -> 0 < exchangedPoints extra (yLevels y) (rankTasks y ts1) (rankTasks y ts2) p.

(** The states that can be reached by computing and combining. *)
Inductive tcpReachable (y : Setup) (esz : Z) (extra : bool) (third1 third2 : nat) (ts1 ts2 : list (list SysTask)) : TcpSystem -> TcpSystem -> Prop :=
| tsys_init : forall X1 X2, startTcpSystem y esz extra third1 third2 ts1 ts2 X1 X2 -> tcpReachable y esz extra third1 third2 ts1 ts2 X1 X2
| tsys_solve : forall X1 X2 u1 u2, tcpReachable y esz extra third1 third2 ts1 ts2 X1 X2 -> sameTasks (nTasks X1) u1 -> sameTasks (nTasks X2) u2 ->
    tcpReachable y esz extra third1 third2 ts1 ts2 {| nTasks := u1; nSys := nSys X1 |} {| nTasks := u2; nSys := nSys X2 |}
| tsys_combine : forall X1 X2 chunk1 chunk2 sH1 sD1 sH2 sD2 X1' X2', tcpReachable y esz extra third1 third2 ts1 ts2 X1 X2 -> 0 < chunk1 < 2 ^ 31 -> 0 < chunk2 < 2 ^ 31 ->
    combineTcpSystem y esz chunk1 chunk2 sH1 sD1 sH2 sD2 X1 X2 X1' X2' -> tcpReachable y esz extra third1 third2 ts1 ts2 X1' X2'.

Definition bothTasks (X1 X2 : TcpSystem) : list SysTask := concat (nTasks X1) ++ concat (nTasks X2).

Lemma rank_nth : forall y ts p, nth_error (rankTasks y ts) p = if Z.of_nat p <? zprod (yProcs y) then Some (map (map (localTask y (Z.of_nat p))) ts) else None.
Proof. intros y ts p. unfold rankTasks. rewrite nth_error_map', zrange_nth_error. destruct (Z.of_nat p <? _); reflexivity. Qed.
Lemma rank_length : forall y ts, length (rankTasks y ts) = ranks y.
Proof. intros y ts. unfold rankTasks. rewrite map_length. unfold zrange. rewrite zseq_length. unfold ranks. f_equal. lia. Qed.
Lemma wfTcp_fits : forall y third1 third2 ts1 ts2, wfTcp y third1 third2 ts1 ts2 -> tcpFits (length (yRef y)) (yLevels y) (ranks y) third1 third2 (rankTasks y ts1) (rankTasks y ts2).
Proof.
  intros y third1 third2 ts1 ts2 (HY & HT & T1 & T2 & B1 & B2). split; [split; apply rank_length|].
  assert (Q : forall ts t, (t < length ts)%nat -> forall p gs, nth_error (rankTasks y ts) p = Some gs -> (t < length gs)%nat).
  { intros ts t Ht p gs Eg. rewrite rank_nth in Eg. destruct (Z.of_nat p <? _); [|discriminate]. injection Eg as <-. now rewrite map_length. }
  split; [now apply Q|]. split; [now apply Q|]. split; [|exact B2]. intros p Hp. split; [|now apply B1].
  change [rankTasks y ts1; rankTasks y ts2] with (processTasks y [ts1; ts2]). rewrite process_of by auto. apply local_tasksFit; auto; [unfold ranks in Hp; lia|]. cbn [concat]. rewrite app_nil_r, concat_app. exact HT.
Qed.

(** ** Ranks and systems *)
Definition shapedT (y : Setup) (ts : list (list SysTask)) (S : TSys) : Prop := length (tProcs S) = ranks y /\ Forall (fun pr => length (tGroups pr) = length ts) (tProcs S).
Lemma localTProc_tasks : forall y ts p pr, length (tGroups pr) = length ts -> map gTasks (tGroups (localTProc y ts (p, pr))) = map (map (localTask y (Z.of_nat p))) ts.
Proof. intros y ts p pr H. exact (localProc_tasks y ts p {| pGroups := tGroups pr; pExtra := initDSG 0 |} H). Qed.
Lemma localTProc_fix : forall y ts p pr, map gTasks (tGroups pr) = map (map (localTask y (Z.of_nat p))) ts -> localTProc y ts (p, pr) = pr.
Proof.
  intros y ts p [gs e] H. pose proof (localProc_fix y ts p {| pGroups := gs; pExtra := initDSG 0 |} H) as E. unfold localProc in E. unfold localTProc. cbn [pGroups pExtra tGroups tExtra fst snd] in *. injection E as E. now rewrite E.
Qed.
Lemma localSys_nth : forall y X p, nth_error (tProcs (localSys y X)) p = match nth_error (tProcs (nSys X)) p with Some pr => Some (localTProc y (nTasks X) (p, pr)) | None => None end.
Proof. intros y X p. unfold localSys. cbn [tProcs]. rewrite nth_error_map', indexed_nth. destruct (nth_error (tProcs (nSys X)) p); reflexivity. Qed.
Lemma shapedT_back : forall y ts S, map (fun pr => map gTasks (tGroups pr)) (tProcs S) = rankTasks y ts -> shapedT y ts S /\ localSys y {| nTasks := ts; nSys := S |} = S.
Proof.
  intros y ts S E. assert (N : forall p pr, nth_error (tProcs S) p = Some pr -> map gTasks (tGroups pr) = map (map (localTask y (Z.of_nat p))) ts).
  { intros p pr Ep. assert (X : nth_error (map (fun pr => map gTasks (tGroups pr)) (tProcs S)) p = Some (map gTasks (tGroups pr))) by (rewrite nth_error_map'; now rewrite Ep).
    rewrite E, rank_nth in X. destruct (Z.of_nat p <? _); [|discriminate]. congruence. }
  split; [split|].
  - apply (f_equal (@length _)) in E. rewrite map_length, rank_length in E. exact E.
  - apply Forall_forall. intros pr Hpr. apply In_nth_error in Hpr. destruct Hpr as (p & Ep). rewrite <- (map_length gTasks), (N p pr Ep), map_length. reflexivity.
  - destruct S as [th ps cs]. unfold localSys. cbn [nSys nTasks tThird tProcs tCounts] in *. f_equal. apply list_ext. intros p. rewrite nth_error_map', indexed_nth. destruct (nth_error ps p) as [pr|] eqn:Ep; auto. cbn [option_map]. f_equal. apply localTProc_fix. now apply N.
Qed.
Lemma tTasks_local : forall y X p, shapedT y (nTasks X) (nSys X) -> (p < ranks y)%nat -> tTasks (localSys y X) p = map (localTask y (Z.of_nat p)) (concat (nTasks X)).
Proof.
  intros y X p [L F] Hp. unfold tTasks. rewrite localSys_nth. destruct (nth_error_lt (tProcs (nSys X)) p ltac:(lia)) as (pr & Ep). rewrite Ep. unfold allTasks. rewrite flat_map_concat_map, localTProc_tasks; [now rewrite concat_map|].
  rewrite Forall_forall in F. apply F. now apply nth_error_In in Ep.
Qed.
Lemma localSys_solved : forall y S ts ts', sameTasks ts ts' -> solvedSys (localSys y {| nTasks := ts; nSys := S |}) (localSys y {| nTasks := ts'; nSys := S |}).
Proof.
  intros y S ts ts' X. split; [reflexivity|]. split; [reflexivity|]. apply Forall2_from_nth. intros p. rewrite !localSys_nth. cbn [nSys nTasks]. destruct (nth_error (tProcs S) p) as [pr|]; auto. split; [|reflexivity]. unfold localTProc. cbn [tGroups fst snd].
  generalize (tGroups pr). induction X as [|a b l l' H X IH]; intros [|g gs]; cbn [map combine]; constructor; auto. split; [|split; reflexivity]. cbn [withTasks gTasks fst snd].
  clear - H. induction H as [|u u' us us' [d ->] H IH]; constructor; auto. reflexivity.
Qed.

Section TcpSystem.
Variables (y : Setup) (esz : Z) (extra : bool) (third1 third2 : nat) (ts1 ts2 : list (list SysTask)).
Hypothesis HW : wfTcp y third1 third2 ts1 ts2.

Definition tcpSysInv (X1 X2 : TcpSystem) : Prop := sameTasks ts1 (nTasks X1) /\ sameTasks ts2 (nTasks X2) /\ shapedT y (nTasks X1) (nSys X1) /\ shapedT y (nTasks X2) (nSys X2) /\
  reachableTcp esz (yLevels y) extra third1 third2 (rankTasks y ts1) (rankTasks y ts2) (localSys y X1) (localSys y X2).

Lemma tcpSys_start : exists X1 X2, startTcpSystem y esz extra third1 third2 ts1 ts2 X1 X2 /\ (forall X1' X2', startTcpSystem y esz extra third1 third2 ts1 ts2 X1' X2' -> X1' = X1 /\ X2' = X2) /\
  nTasks X1 = ts1 /\ nTasks X2 = ts2 /\ tcpSysInv X1 X2.
Proof.
  pose proof HW as (HY & _). pose proof HY as (_ & _ & _ & _ & _ & (rest & EL) & HL & HP). pose proof (wfTcp_fits y third1 third2 ts1 ts2 HW) as WF.
  assert (ST : exists S1 S2, startTcp esz (yLevels y) extra third1 third2 (rankTasks y ts1) (rankTasks y ts2) S1 S2 /\
     (forall S1' S2', startTcp esz (yLevels y) extra third1 third2 (rankTasks y ts1) (rankTasks y ts2) S1' S2' -> S1' = S1 /\ S2' = S2) /\
     map (fun pr => map gTasks (tGroups pr)) (tProcs S1) = rankTasks y ts1 /\ map (fun pr => map gTasks (tGroups pr)) (tProcs S2) = rankTasks y ts2).
  { revert WF HL HP. rewrite EL. intros WF HL HP. exact (C95_start esz (length (yRef y)) rest extra (ranks y) third1 third2 (rankTasks y ts1) (rankTasks y ts2) HL HP WF). }
  destruct ST as (S1 & S2 & ST & UQ & M1 & M2). exists {| nTasks := ts1; nSys := S1 |}, {| nTasks := ts2; nSys := S2 |}.
  split; [exists S1, S2; auto|]. split; [intros X1' X2' (A & B & Q & -> & ->); destruct (UQ A B Q) as [-> ->]; auto|]. split; auto. split; auto.
  destruct (shapedT_back y ts1 S1 M1) as [SH1 L1]. destruct (shapedT_back y ts2 S2 M2) as [SH2 L2]. unfold tcpSysInv. cbn [nTasks nSys]. rewrite L1, L2. split; [apply sameTasks_refl|]. split; [apply sameTasks_refl|]. split; auto. split; auto. now apply tcp_init.
Qed.
Lemma tcpSys_solve : forall X1 X2 u1 u2, tcpSysInv X1 X2 -> sameTasks (nTasks X1) u1 -> sameTasks (nTasks X2) u2 -> tcpSysInv {| nTasks := u1; nSys := nSys X1 |} {| nTasks := u2; nSys := nSys X2 |}.
Proof.
  intros [t1 S1] [t2 S2] u1 u2 (A1 & A2 & B1 & B2 & R) F1 F2. unfold tcpSysInv. cbn [nTasks nSys] in *. split; [now apply (sameTasks_trans _ t1)|]. split; [now apply (sameTasks_trans _ t2)|].
  assert (Q : forall t u S, sameTasks t u -> shapedT y t S -> shapedT y u S) by (intros t u S F [A B]; split; auto; apply Forall2_length in F; rewrite <- F; exact B).
  split; [now apply (Q t1)|]. split; [now apply (Q t2)|]. apply (tcp_solve _ _ _ _ _ _ _ (localSys y {| nTasks := t1; nSys := S1 |}) (localSys y {| nTasks := t2; nSys := S2 |})); auto; now apply localSys_solved.
Qed.

(** What an exchange on the ranks means for one system's tasks. *)
Lemma rank_result : forall all X R, shapedT y (nTasks X) (nSys X) -> length (tProcs R) = ranks y ->
  (forall p pr, nth_error (tProcs (localSys y X)) p = Some pr -> exists pr', nth_error (tProcs R) p = Some pr' /\
     Forall2 (fun g g' => Forall2 (combinedTask (yLevels y) (map (localTask y (Z.of_nat p)) all)) (gTasks g) (gTasks g')) (tGroups pr) (tGroups pr')) ->
  let w := gatherTasks (nTasks X) (map tGroups (tProcs R)) in
  Forall2 (Forall2 (fun t t' => sameKind t t' /\ forall r, 0 <= r < zprod (yProcs y) -> exists c, combinedTask (yLevels y) (map (localTask y r) all) (localTask y r t) c /\ sData t' r = cValues c)) (nTasks X) w /\
  map (fun pr => map gTasks (tGroups pr)) (tProcs R) = rankTasks y w.
Proof.
  intros all X R [L F] LR H w. rewrite Forall_forall in F.
  assert (G : forall r, 0 <= r < zprod (yProcs y) -> Forall2 (fun us g' => Forall2 (fun t c => combinedTask (yLevels y) (map (localTask y r) all) (localTask y r t) c) us (gTasks g')) (nTasks X) (nth (Z.to_nat r) (map tGroups (tProcs R)) [])).
  { intros r Hr. destruct (nth_error_lt (tProcs (nSys X)) (Z.to_nat r)) as (pr & Epr); [unfold ranks in L; lia|].
    destruct (H (Z.to_nat r) (localTProc y (nTasks X) (Z.to_nat r, pr))) as (pr' & Epr' & FG); [rewrite localSys_nth; now rewrite Epr|].
    rewrite (nth_error_nth (map tGroups (tProcs R)) (Z.to_nat r) (x := tGroups pr')) by (rewrite nth_error_map'; now rewrite Epr').
    rewrite Z2Nat.id in FG by lia. refine (groups_tasks _ _ _ _ _ FG _). rewrite localTProc_tasks by (apply F; now apply nth_error_In in Epr). now rewrite Z2Nat.id by lia. }
  split.
  - exact (gather_spec (fun r t c => combinedTask (yLevels y) (map (localTask y r) all) (localTask y r t) c) (nTasks X) (map tGroups (tProcs R)) (zprod (yProcs y)) G).
  - apply list_ext. intros p. rewrite nth_error_map', rank_nth. destruct (Z.ltb_spec (Z.of_nat p) (zprod (yProcs y))) as [Hp|Hp].
    + destruct (nth_error_lt (tProcs R) p ltac:(unfold ranks in LR; lia)) as (pr' & Epr'). rewrite Epr'. cbn [option_map]. f_equal.
      assert (NG : nth (Z.to_nat (Z.of_nat p)) (map tGroups (tProcs R)) [] = tGroups pr') by (rewrite Nat2Z.id; apply nth_error_nth; rewrite nth_error_map'; now rewrite Epr').
      rewrite <- NG. apply (gather_local y (nTasks X) (map tGroups (tProcs R)) (zprod (yProcs y)) (Z.of_nat p)); [lia|]. eapply Forall2_imp2; [|exact (G (Z.of_nat p) ltac:(lia))]. intros us g' Q. eapply Forall2_imp2; [|exact Q]. intros t c Z0. exact (combinedTask_solved _ _ _ _ Z0).
    + destruct (nth_error (tProcs R) p) eqn:Epr'; auto. assert (p < length (tProcs R))%nat by (apply nth_error_Some; congruence). unfold ranks in LR. lia.
Qed.

Lemma everyTask_pair : forall (P : nat -> Comp -> Comp -> Prop) S1 S2 R1 R2, everyTask P (bothSystems S1 S2) (bothSystems R1 R2) ->
  forall S R, (S = S1 /\ R = R1) \/ (S = S2 /\ R = R2) -> length (tProcs R) = length (tProcs S) /\
  forall p pr, nth_error (tProcs S) p = Some pr -> exists pr', nth_error (tProcs R) p = Some pr' /\ Forall2 (fun g g' => Forall2 (P p) (gTasks g) (gTasks g')) (tGroups pr) (tGroups pr').
Proof.
  intros P S1 S2 R1 R2 (_ & F) S R HS. assert (X : length (asProcs R) = length (asProcs S) /\ forall p pr, nth_error (asProcs S) p = Some pr -> exists pr', nth_error (asProcs R) p = Some pr' /\ Forall2 (fun g g' => Forall2 (P p) (gTasks g) (gTasks g')) (pGroups pr) (pGroups pr')).
  { destruct HS as [[-> ->]|[-> ->]]; [destruct (F 0%nat _ eq_refl) as (ps & E & G)|destruct (F 1%nat _ eq_refl) as (ps & E & G)]; injection E as <-; exact G. }
  destruct X as [L G]. unfold asProcs in L. rewrite !map_length in L. split; auto. intros p pr Ep.
  destruct (G p {| pGroups := tGroups pr; pExtra := match tExtra pr with Some e => e | None => initDSG 0 end |}) as (q & Eq & H); [unfold asProcs; rewrite nth_error_map'; now rewrite Ep|].
  unfold asProcs in Eq. rewrite nth_error_map' in Eq. destruct (nth_error (tProcs R) p) as [pr'|]; [|discriminate]. injection Eq as <-. exists pr'. auto.
Qed.

Lemma tcpSys_combine : forall X1 X2 mc1 mc2 sH1 sD1 sH2 sD2, tcpSysInv X1 X2 -> 0 < mc1 < 2 ^ 31 -> 0 < mc2 < 2 ^ 31 -> someExchange y extra ts1 ts2 ->
  exists X1' X2', combineTcpSystem y esz mc1 mc2 sH1 sD1 sH2 sD2 X1 X2 X1' X2' /\
    (forall X1'' X2'', combineTcpSystem y esz mc1 mc2 sH1 sD1 sH2 sD2 X1 X2 X1'' X2'' -> X1'' = X1' /\ X2'' = X2') /\ tcpSysInv X1' X2' /\ sameTasks (nTasks X1) (nTasks X1') /\ sameTasks (nTasks X2) (nTasks X2') /\
    Forall2 (combinedSys y (bothTasks X1 X2)) (bothTasks X1 X2) (bothTasks X1' X2').
Proof.
  intros [a1 S1] [a2 S2] mc1 mc2 sH1 sD1 sH2 sD2 I HM1 HM2 HU. pose proof HW as (HY & HT & _). pose proof HY as (_ & _ & _ & _ & _ & (rest & EL) & HL & HP). pose proof (wfTcp_fits y third1 third2 ts1 ts2 HW) as WF.
  pose proof I as (A1 & A2 & B1 & B2 & R). unfold bothTasks. cbn [nTasks nSys] in *. apply Forall_app in HT. destruct HT as [HT1 HT2].
  assert (RP : forall a, Forall (wfTask y) (concat a) -> forall t, In t (concat a) -> represents (taskCfg y (sLevel t)) (valueAt y t) (sData t)).
  { intros a WS t Ht. apply C19_state_is_grid_function. apply taskCfg_wf; auto. rewrite Forall_forall in WS. auto. }
  assert (SW : forall de stale a, Forall (wfTask y) (concat a) -> exists b, sweepTasks y de stale a = Some b /\
     Forall2 (Forall2 (fun t t' => sameKind t t' /\ represents (taskCfg y (sLevel t)) (opAll (taskCfg y (sLevel t)) de (dims y) (valueAt y t)) (sData t'))) a b).
  { intros de stale a WS. destruct (sweepTasks_spec y de stale a (valueAt y) HY WS (RP a WS)) as (b & E & F). exists b. split; auto. eapply Forall2_imp2; [|exact F]. intros c d G. eapply Forall2_imp2; [|exact G]. cbn. tauto. }
  pose proof (sameTasks_wf y ts1 a1 A1 HT1) as W1. pose proof (sameTasks_wf y ts2 a2 A2 HT2) as W2.
  destruct (SW false sH1 a1 W1) as (u1 & E1 & F1). destruct (SW false sH2 a2 W2) as (u2 & E2 & F2). pose proof (sameTasks_of _ _ _ F1) as K1. pose proof (sameTasks_of _ _ _ F2) as K2.
  pose proof (tcpSys_solve _ _ u1 u2 I K1 K2) as (C1 & C2 & D1 & D2 & R'). cbn [nTasks nSys] in C1, C2, D1, D2, R'.
  set (Y1 := {| nTasks := u1; nSys := S1 |}) in *. set (Y2 := {| nTasks := u2; nSys := S2 |}) in *.
  assert (C : exists R1 R2, combineTcp esz (yLevels y) mc1 mc2 (localSys y Y1) (localSys y Y2) R1 R2 /\ (forall R1' R2', combineTcp esz (yLevels y) mc1 mc2 (localSys y Y1) (localSys y Y2) R1' R2' -> R1' = R1 /\ R2' = R2) /\
     everyTask (fun p => combinedTask (yLevels y) (allHeld (bothSystems (localSys y Y1) (localSys y Y2)) p)) (bothSystems (localSys y Y1) (localSys y Y2)) (bothSystems R1 R2)).
  { revert WF HL HP R' HU. unfold someExchange. rewrite EL. intros WF HL HP R' HU. exact (C95_combination_partial esz (length (yRef y)) rest extra (ranks y) third1 third2 (rankTasks y ts1) (rankTasks y ts2) (localSys y Y1) (localSys y Y2) mc1 mc2 HL HP WF R' HM1 HM2 HU). }
  destruct C as (R1 & R2 & CT & UQ & EV). pose proof (everyTask_pair _ _ _ _ _ EV) as PR. set (all := concat u1 ++ concat u2).
  assert (LL : forall Y, shapedT y (nTasks Y) (nSys Y) -> length (tProcs (localSys y Y)) = ranks y) by (intros Y [L _]; unfold localSys; cbn [tProcs]; rewrite map_length, indexed_length; exact L).
  assert (AH : forall p, (p < ranks y)%nat -> allHeld (bothSystems (localSys y Y1) (localSys y Y2)) p = map (localTask y (Z.of_nat p)) all).
  { intros p Hp. rewrite allHeld_both, !tTasks_local by auto. cbn [Y1 Y2 nTasks]. unfold all. now rewrite map_app. }
  destruct (PR _ _ (or_introl (conj eq_refl eq_refl))) as [L1 P1]. destruct (PR _ _ (or_intror (conj eq_refl eq_refl))) as [L2 P2].
  rewrite (LL Y1 D1) in L1. rewrite (LL Y2 D2) in L2.
  destruct (rank_result all Y1 R1 D1 L1) as [G1 M1]. { intros p pr Ep. rewrite <- AH by (rewrite <- (LL Y1 D1); apply nth_error_Some; congruence). now apply P1. }
  destruct (rank_result all Y2 R2 D2 L2) as [G2 M2]. { intros p pr Ep. rewrite <- AH by (rewrite <- (LL Y2 D2); apply nth_error_Some; congruence). now apply P2. }
  cbn [Y1 Y2 nTasks] in G1, G2, M1, M2. set (g1 := gatherTasks u1 (map tGroups (tProcs R1))) in *. set (g2 := gatherTasks u2 (map tGroups (tProcs R2))) in *.
  pose proof (sameTasks_of _ _ _ G1) as K3. pose proof (sameTasks_of _ _ _ G2) as K4.
  assert (C3 : sameTasks ts1 g1) by now apply (sameTasks_trans _ u1). assert (C4 : sameTasks ts2 g2) by now apply (sameTasks_trans _ u2).
  destruct (SW true sD1 g1 (sameTasks_wf y ts1 g1 C3 HT1)) as (w1 & E3 & F3). destruct (SW true sD2 g2 (sameTasks_wf y ts2 g2 C4 HT2)) as (w2 & E4 & F4). pose proof (sameTasks_of _ _ _ F3) as K5. pose proof (sameTasks_of _ _ _ F4) as K6.
  exists {| nTasks := w1; nSys := R1 |}, {| nTasks := w2; nSys := R2 |}. split; [|split; [|split; [|split; [|split]]]]; cbn [nTasks].
  - exists u1, u2, R1, R2, w1, w2. cbn [nTasks nSys]. auto 10.
  - intros X1'' X2'' (v1 & v2 & Q1 & Q2 & z1 & z2 & V1 & V2 & CT' & V3 & V4 & -> & ->). cbn [nTasks nSys] in *. rewrite E1 in V1. injection V1 as <-. rewrite E2 in V2. injection V2 as <-. destruct (UQ Q1 Q2 CT') as [-> ->].
    fold g1 in V3. fold g2 in V4. rewrite E3 in V3. rewrite E4 in V4. split; congruence.
  - destruct (shapedT_back y g1 R1 M1) as [SH1 LC1]. destruct (shapedT_back y g2 R2 M2) as [SH2 LC2].
    apply (tcpSys_solve {| nTasks := g1; nSys := R1 |} {| nTasks := g2; nSys := R2 |} w1 w2); auto. unfold tcpSysInv. cbn [nTasks nSys]. rewrite LC1, LC2. split; auto. split; auto. split; auto. split; auto.
    exact (tcp_combine esz (yLevels y) extra third1 third2 (rankTasks y ts1) (rankTasks y ts2) (localSys y Y1) (localSys y Y2) mc1 mc2 R1 R2 R' HM1 HM2 CT).
  - apply (sameTasks_trans _ u1); auto. now apply (sameTasks_trans _ g1).
  - apply (sameTasks_trans _ u2); auto. now apply (sameTasks_trans _ g2).
  - rewrite <- !concat_app. apply (steps_combined y (a1 ++ a2) (u1 ++ u2) (g1 ++ g2) (w1 ++ w2)); [exact HY|rewrite concat_app; apply Forall_app; auto|apply Forall2_app; auto|rewrite concat_app; apply Forall2_app; auto|apply Forall2_app; auto].
Qed.

Lemma tcpReachable_inv : forall X1 X2, someExchange y extra ts1 ts2 -> tcpReachable y esz extra third1 third2 ts1 ts2 X1 X2 -> tcpSysInv X1 X2.
Proof.
  intros X1 X2 HU R. induction R as [X1 X2 ST|X1 X2 u1 u2 R IH F1 F2|X1 X2 mc1 mc2 sH1 sD1 sH2 sD2 X1' X2' R IH HM1 HM2 CT].
  - destruct tcpSys_start as (Y1 & Y2 & _ & UQ & _ & _ & I). destruct (UQ X1 X2 ST) as [-> ->]. exact I.
  - now apply tcpSys_solve.
  - destruct (tcpSys_combine X1 X2 mc1 mc2 sH1 sD1 sH2 sD2 IH HM1 HM2 HU) as (Y1 & Y2 & _ & UQ & I & _). destruct (UQ X1' X2' CT) as [-> ->]. exact I.
Qed.
End TcpSystem.

(** ** Points to exchange *)

(** Both systems have a task, such that the subspaces of both tasks are in the sparse grid. *)
Definition overlap (y : Setup) (ts1 ts2 : list (list SysTask)) : Prop := exists t u, In t (concat ts1) /\ In u (concat ts2) /\
  forall l, Forall2 (fun x z => 1 <= x <= z) l (sLevel t) -> Forall2 (fun x z => 1 <= x <= z) l (sLevel u) -> In l (yLevels y).

Lemma zsum_pos : forall (l : list Z) x, In x l -> 0 < x -> Forall (fun s => 0 <= s) l -> 0 < zsum l.
Proof.
  intros l x Hx P F. induction F as [|a l HA F IH]; [destruct Hx|]. change (zsum (a :: l)) with (a + zsum l). destruct Hx as [->|Hx]; [pose proof (zsum_nonneg _ F); lia|specialize (IH Hx); lia].
Qed.

(** Every rank has a point that two grids have in common. *)
Lemma common_point : forall y r t u, wfSetup y -> 0 <= r < zprod (yProcs y) -> wfTask y t -> wfTask y u ->
  exists l, containsL (localTask y r t) l /\ containsL (localTask y r u) l /\ (0 < length (pointsOf (localTask y r t) l))%nat.
Proof.
  intros y r t u HY Hr HT HU. pose proof HT as (T1 & T2 & T3 & _). pose proof HU as (U1 & U2 & U3 & _). pose proof HY as (D & LB & LM & V & HK & _).
  set (L := map2 Z.min (sLevel t) (sLevel u)). set (m := {| sLevel := L; sCoeff := 0%Qc; sThreads := fun _ => [getDownSet L]; sData := fun _ => zeroA |}).
  assert (LL : length L = length (yRef y)) by (unfold L; rewrite map2_length; lia).
  assert (NL : forall k, (k < length (yRef y))%nat -> nth k L 0 = Z.min (nth k (sLevel t) 0) (nth k (sLevel u) 0)) by (intros k Hk; unfold L; apply map2_nth; lia).
  assert (L2 : forall k, (k < length (yRef y))%nat -> 1 <= nth k L 0 <= nth k (yRef y) 0) by (intros k Hk; rewrite NL by auto; specialize (T2 k Hk); specialize (U2 k Hk); lia).
  pose proof V as (V1 & V2 & V3). assert (LG : forall A, length A = length (yRef y) -> length (globalSizes A (yBnds y)) = length (yRef y)) by (intros A HA; unfold globalSizes; rewrite map2_length; lia).
  assert (LD : length (yDecs y) = length (yRef y)) by (rewrite <- V2; auto).
  assert (GN : forall A B k, length A = length (yRef y) -> length B = length (yRef y) -> (k < length (yRef y))%nat -> nth k A 0 = nth k B 0 ->
     nth k (globalSizes A (yBnds y)) 0 = nth k (globalSizes B (yBnds y)) 0 /\ nth k (downsampleDecomposition (yDecs y) (yRef y) A (yBnds y)) [] = nth k (downsampleDecomposition (yDecs y) (yRef y) B (yBnds y)) []).
  { intros A B k HA HB Hk E. split; [unfold globalSizes; rewrite !(map2_nth _ _ _ _ _ _ k 0 0) by lia; now rewrite E|]. rewrite !downsample_nth by lia. now rewrite E. }
  assert (L3 : validDec (yProcs y) (globalSizes L (yBnds y)) (downsampleDecomposition (yDecs y) (yRef y) L (yBnds y))).
  { assert (LDS : forall A, length (downsampleDecomposition (yDecs y) (yRef y) A (yBnds y)) = length (yRef y)) by (intros A; now rewrite downsample_length).
    destruct T3 as (A1 & A2 & A3), U3 as (B1 & B2 & B3). rewrite LDS in A1, A2, A3, B1, B2, B3. unfold validDec. rewrite LDS. split; [exact A1|]. split; [now apply LG|]. intros i Hi.
    assert (nth i L 0 = nth i (sLevel t) 0 \/ nth i L 0 = nth i (sLevel u) 0) as [E|E] by (rewrite NL by auto; lia).
    - destruct (GN L (sLevel t) i LL T1 Hi E) as [-> ->]. auto.
    - destruct (GN L (sLevel u) i LL U1 Hi E) as [-> ->]. auto. }
  assert (WC : wfCfg (taskCfg y L)).
  { unfold wfCfg. cbn [taskCfg hLevels hBnds hLmin hProcs hDecs hSizes]. rewrite LL. split; auto. split; auto. split; [apply (effectiveLmin_spec y 0 HY D)|]. split; [exact L3|].
    intros k Hk. destruct (HK k Hk) as (A & B & C & _). destruct (effectiveLmin_spec y k HY Hk) as (_ & E1 & E2). specialize (L2 k Hk). repeat split; auto; lia. }
  assert (SZ : forall k, (k < length (yRef y))%nat -> nth k (globalSizes L (yBnds y)) 0 = 2 ^ nth k L 0 + nth k (yBnds y) 0 - 1).
  { intros k Hk. unfold globalSizes. rewrite (map2_nth _ _ _ _ _ _ k 0 0) by lia. unfold numDofNodal1. specialize (L2 k Hk). destruct (Z.gtb_spec (nth k L 0) 0); [auto|lia]. }
  assert (GC : goodComp (length (yRef y)) (localTask y r m)).
  { split; [|split; [exact LL|split]].
    - cbn [localTask cGrid m sLevel]. pose proof L3 as (X1 & X2 & X3). rewrite LG in X2 by auto. apply gridOfRank_wf; auto; [lia|]. intros i Hi. destruct (HK i ltac:(lia)) as (_ & B & _). specialize (L2 i ltac:(lia)).
      split; [lia|]. split; auto. intros c Hc. destruct (X3 i ltac:(lia)) as [E V4]. rewrite SZ in V4 by lia. pose proof (validDec1_range _ _ _ V4 Hc). lia.
    - cbn [localTask cThreads m sThreads]. constructor; [apply C08_downset_sorted|constructor].
    - cbn [localTask cThreads m sThreads concat]. rewrite app_nil_r. apply Permutation_refl. }
  assert (PZ : 0 <= 0 < zprod (gSizes (cGrid (localTask y r m)))).
  { split; [lia|]. change (gSizes (cGrid (localTask y r m))) with (hLocalSizes (taskCfg y L) r). apply zprod_posExt. apply (localSizes_pos _ WC r Hr). }
  destruct (points_cover _ _ 0 GC PZ) as (l & j & Cl & Hj & _). exists l.
  assert (CM : forall A, length A = length (yRef y) -> (forall k, (k < length (yRef y))%nat -> nth k L 0 <= nth k A 0) -> Forall2 (fun x z => 1 <= x <= z) l A).
  { intros A HA LE. unfold containsL in Cl. change (gLevel (cGrid (localTask y r m))) with L in Cl. apply Forall2_from_nth. intros k. pose proof (Forall2_to_nth _ _ _ Cl k) as X.
    destruct (nth_error l k) as [x|], (nth_error L k) as [z|] eqn:EL; try contradiction.
    - assert (Hk : (k < length (yRef y))%nat) by (rewrite <- LL; apply nth_error_Some; congruence). destruct (nth_error_lt A k ltac:(lia)) as (a & Ea). rewrite Ea. specialize (LE k Hk). rewrite (nth_error_nth L k 0 EL), (nth_error_nth A k 0 Ea) in LE. lia.
    - apply nth_error_None in EL. destruct (nth_error A k) eqn:Ea; auto. assert (k < length A)%nat by (apply nth_error_Some; congruence). lia. }
  assert (Ct : containsL (localTask y r t) l) by (apply (CM (sLevel t)); auto; intros k Hk; rewrite NL by auto; lia).
  assert (Cu : containsL (localTask y r u) l) by (apply (CM (sLevel u)); auto; intros k Hk; rewrite NL by auto; lia).
  split; auto. split; auto. destruct (dec_conditions y HY L (sLevel t) LL T1) as (S & _ & H); [intros k Hk; specialize (T2 k Hk); specialize (L2 k Hk); lia|].
  pose proof (C56_same_point_order (yProcs y) (yRef y) L (sLevel t) (yBnds y) (yDecs y) r l S ltac:(lia) ltac:(lia) ltac:(lia) ltac:(lia) H Cl Ct Hr) as E. cbv zeta in E. apply (f_equal (@length _)) in E. rewrite !map_length in E.
  change (length (pointsOf (localTask y r m) l) = length (pointsOf (localTask y r t) l)) in E. lia.
Qed.

(** Then every process has points to exchange, with and without extra sparse grids. *)
Theorem C96_points_to_exchange : forall y third1 third2 ts1 ts2 extra, wfTcp y third1 third2 ts1 ts2 -> overlap y ts1 ts2 -> someExchange y extra ts1 ts2.
Proof.
  intros y third1 third2 ts1 ts2 extra HW (t & u & Ht & Hu & HO) p Hp. pose proof HW as (HY & HT & _). pose proof (wfTcp_fits y third1 third2 ts1 ts2 HW) as (_ & _ & _ & TF & _). destruct (TF p Hp) as [TFp _].
  rewrite Forall_forall in HT. assert (WT : wfTask y t) by (apply HT; apply in_or_app; auto). assert (WU : wfTask y u) by (apply HT; apply in_or_app; auto).
  assert (Hr : 0 <= Z.of_nat p < zprod (yProcs y)) by (unfold ranks in Hp; lia). destruct (common_point y (Z.of_nat p) t u HY Hr WT WU) as (l & Ct & Cu & PL).
  assert (NN : forall ts, nth p (rankTasks y ts) [] = map (map (localTask y (Z.of_nat p))) ts).
  { intros ts. apply nth_error_nth. rewrite rank_nth. destruct (Z.ltb_spec (Z.of_nat p) (zprod (yProcs y))); [reflexivity|lia]. }
  assert (HB : forall ts c, In c (concat ts) -> containsL (localTask y (Z.of_nat p) c) l -> heldBy (rankTasks y ts) p l = true).
  { intros ts c Hc C. apply (held_contains (localTask y (Z.of_nat p) c)); auto. rewrite NN, <- concat_map. now apply in_map. }
  unfold exchangedPoints. apply zsum_pos with (x := pointsAt [rankTasks y ts1; rankTasks y ts2] p l).
  - apply in_map_iff. exists l. split; [|apply HO; auto]. rewrite (HB ts1 t Ht Ct), (HB ts2 u Hu Cu). destruct extra; reflexivity.
  - pose proof (tasks_ok (length (yRef y)) _ TFp) as TO. unfold pointsAt.
    assert (IN : exists cs, In cs (tasksOfProcess [rankTasks y ts1; rankTasks y ts2] p) /\ In (localTask y (Z.of_nat p) t) cs).
    { apply in_concat in Ht. destruct Ht as (g & Hg & Ht). exists (map (localTask y (Z.of_nat p)) g). split; [|now apply in_map]. unfold tasksOfProcess. cbn [map concat]. apply in_or_app. left. rewrite NN. now apply in_map. }
    destruct IN as (cs & Hcs & Hc). rewrite Forall_forall in TO. destruct (TO cs Hcs) as [_ CN]. rewrite <- (CN _ l Hc Ct). lia.
  - apply Forall_forall. intros x Hx. apply in_map_iff in Hx. destruct Hx as (q & <- & _). destruct TFp as (_ & _ & T). pose proof (cntOf_range _ q T). destruct (if extra then _ else _); unfold pointsAt; lia.
Qed.

(** ** C96 *)

(** The start of both systems succeeds, with one result, and leaves the tasks as they are. *)
Theorem C96_start : forall y esz extra third1 third2 ts1 ts2, wfTcp y third1 third2 ts1 ts2 ->
  exists X1 X2, startTcpSystem y esz extra third1 third2 ts1 ts2 X1 X2 /\ (forall X1' X2', startTcpSystem y esz extra third1 third2 ts1 ts2 X1' X2' -> X1' = X1 /\ X2' = X2) /\ nTasks X1 = ts1 /\ nTasks X2 = ts2.
Proof. intros y esz extra third1 third2 ts1 ts2 HW. destruct (tcpSys_start y esz extra third1 third2 ts1 ts2 HW) as (X1 & X2 & A & B & C & D & _). exists X1, X2. auto. Qed.

(** In every state that can be reached the combination succeeds, in every order of the messages with the same result, and every task of both
    systems then holds, at every point, the values of the combined hierarchical coefficients of the tasks of both systems. *)
Theorem C96_combination : forall y esz extra third1 third2 ts1 ts2 X1 X2 chunk1 chunk2 sH1 sD1 sH2 sD2, wfTcp y third1 third2 ts1 ts2 -> overlap y ts1 ts2 ->
  tcpReachable y esz extra third1 third2 ts1 ts2 X1 X2 -> 0 < chunk1 < 2 ^ 31 -> 0 < chunk2 < 2 ^ 31 ->
  exists X1' X2', combineTcpSystem y esz chunk1 chunk2 sH1 sD1 sH2 sD2 X1 X2 X1' X2' /\
    (forall X1'' X2'', combineTcpSystem y esz chunk1 chunk2 sH1 sD1 sH2 sD2 X1 X2 X1'' X2'' -> X1'' = X1' /\ X2'' = X2') /\
    sameTasks (nTasks X1) (nTasks X1') /\ sameTasks (nTasks X2) (nTasks X2') /\ Forall2 (combinedSys y (bothTasks X1 X2)) (bothTasks X1 X2) (bothTasks X1' X2').
Proof.
  intros y esz extra third1 third2 ts1 ts2 X1 X2 c1 c2 sH1 sD1 sH2 sD2 HW HO R H1 H2. pose proof (C96_points_to_exchange y third1 third2 ts1 ts2 extra HW HO) as HU. pose proof (tcpReachable_inv y esz extra third1 third2 ts1 ts2 HW X1 X2 HU R) as I.
  destruct (tcpSys_combine y esz extra third1 third2 ts1 ts2 HW X1 X2 c1 c2 sH1 sD1 sH2 sD2 I H1 H2 HU) as (X1' & X2' & A & B & _ & C & D & E). exists X1', X2'. auto.
Qed.

Lemma tcp_result_sys : forall y esz extra third1 third2 ts1 ts2 X1 X2 chunk1 chunk2 sH1 sD1 sH2 sD2 X1' X2', wfTcp y third1 third2 ts1 ts2 -> overlap y ts1 ts2 ->
  tcpReachable y esz extra third1 third2 ts1 ts2 X1 X2 -> 0 < chunk1 < 2 ^ 31 -> 0 < chunk2 < 2 ^ 31 -> combineTcpSystem y esz chunk1 chunk2 sH1 sD1 sH2 sD2 X1 X2 X1' X2' ->
  sameTasks (nTasks X1) (nTasks X1') /\ sameTasks (nTasks X2) (nTasks X2') /\ Forall2 (combinedSys y (bothTasks X1 X2)) (bothTasks X1 X2) (bothTasks X1' X2').
Proof.
  intros y esz extra third1 third2 ts1 ts2 X1 X2 c1 c2 sH1 sD1 sH2 sD2 X1' X2' HW HO R H1 H2 E. destruct (C96_combination y esz extra third1 third2 ts1 ts2 X1 X2 c1 c2 sH1 sD1 sH2 sD2 HW HO R H1 H2) as (Y1 & Y2 & _ & UQ & A). destruct (UQ _ _ E) as [-> ->]. exact A.
Qed.
Lemma tcp_same : forall y esz extra third1 third2 ts1 ts2 X1 X2, wfTcp y third1 third2 ts1 ts2 -> overlap y ts1 ts2 -> tcpReachable y esz extra third1 third2 ts1 ts2 X1 X2 -> sameTasks (ts1 ++ ts2) (nTasks X1 ++ nTasks X2).
Proof.
  intros y esz extra third1 third2 ts1 ts2 X1 X2 HW HO R. pose proof (C96_points_to_exchange y third1 third2 ts1 ts2 extra HW HO) as HU. destruct (tcpReachable_inv y esz extra third1 third2 ts1 ts2 HW X1 X2 HU R) as (A & B & _). now apply Forall2_app.
Qed.
Lemma tcp_wf : forall y esz extra third1 third2 ts1 ts2 X1 X2, wfTcp y third1 third2 ts1 ts2 -> overlap y ts1 ts2 -> tcpReachable y esz extra third1 third2 ts1 ts2 X1 X2 -> Forall (wfTask y) (bothTasks X1 X2).
Proof.
  intros y esz extra third1 third2 ts1 ts2 X1 X2 HW HO R. pose proof (tcp_same y esz extra third1 third2 ts1 ts2 X1 X2 HW HO R) as S. unfold bothTasks. rewrite <- concat_app. apply (sameTasks_wf y (ts1 ++ ts2)); auto. rewrite concat_app. apply HW.
Qed.

(** One system with all the tasks, whatever its groups, processes, decomposition and variant, gets the same values. *)
Theorem C96_as_one_system : forall y esz extra third1 third2 ts1 ts2 X1 X2 chunk1 chunk2 sH1 sD1 sH2 sD2 X1' X2' y' v esz' tasks' S chunk order staleH' staleD' S1 us,
  sameProblem y y' -> wfTcp y third1 third2 ts1 ts2 -> overlap y ts1 ts2 -> wfSystem y' v tasks' -> tcpReachable y esz extra third1 third2 ts1 ts2 X1 X2 -> sysReachable y' v esz' tasks' S ->
  0 < chunk1 < 2 ^ 31 -> 0 < chunk2 < 2 ^ 31 -> 0 < chunk < 2 ^ 31 -> allOrders y' S order ->
  Permutation us (concat (sTasks S)) -> Forall2 (sameFunction y y') (bothTasks X1 X2) us ->
  combineTcpSystem y esz chunk1 chunk2 sH1 sD1 sH2 sD2 X1 X2 X1' X2' -> combineSystem y' v esz' chunk order staleH' staleD' S = Some S1 ->
  forall i k t t1 u u1, nth_error (bothTasks X1 X2) i = Some t -> nth_error (bothTasks X1' X2') i = Some t1 ->
    nth_error (concat (sTasks S)) k = Some u -> nth_error (concat (sTasks S1)) k = Some u1 -> sameFunction y y' t u -> sameFunction y y' t1 u1.
Proof.
  intros y esz extra third1 third2 ts1 ts2 X1 X2 c1 c2 sH1 sD1 sH2 sD2 X1' X2' y' v esz' tasks' S chunk order sH' sD' S1 us SP HW HO HS R R' H1 H2 HK HOr PM F E E'.
  destruct (tcp_result_sys y esz extra third1 third2 ts1 ts2 X1 X2 c1 c2 sH1 sD1 sH2 sD2 X1' X2' HW HO R H1 H2 E) as (_ & _ & FX).
  destruct (combine_sys y' v esz' tasks' S chunk order sH' sD' HS R' HK HOr) as (Z & EZ & _ & _ & FZ). rewrite E' in EZ. injection EZ as <-.
  apply (combined_sameFunction y y' _ _ _ _ us); auto; [exact (proj1 HW)|exact (tcp_wf y esz extra third1 third2 ts1 ts2 X1 X2 HW HO R)].
Qed.

(** With hat functions, values on which the tasks of both systems agree stay as they are, if the coefficients of both systems
    together sum to one on every subspace. *)
Theorem C96_common_values_kept : forall y esz extra third1 third2 ts1 ts2 X1 X2 chunk1 chunk2 sH1 sD1 sH2 sD2 X1' X2', wfTcp y third1 third2 ts1 ts2 -> overlap y ts1 ts2 -> hatSetup y ->
  tcpReachable y esz extra third1 third2 ts1 ts2 X1 X2 -> 0 < chunk1 < 2 ^ 31 -> 0 < chunk2 < 2 ^ 31 -> unitySys y (bothTasks X1 X2) -> fitTogether y (bothTasks X1 X2) ->
  combineTcpSystem y esz chunk1 chunk2 sH1 sD1 sH2 sD2 X1 X2 X1' X2' -> Forall2 (sameValuesSys y) (bothTasks X1 X2) (bothTasks X1' X2').
Proof.
  intros y esz extra third1 third2 ts1 ts2 X1 X2 c1 c2 sH1 sD1 sH2 sD2 X1' X2' HW HO HH R H1 H2 HU HF E. destruct (tcp_result_sys y esz extra third1 third2 ts1 ts2 X1 X2 c1 c2 sH1 sD1 sH2 sD2 X1' X2' HW HO R H1 H2 E) as (_ & _ & F).
  pose proof (tcp_wf y esz extra third1 third2 ts1 ts2 X1 X2 HW HO R) as WT. pose proof HW as (HY & _).
  apply (combined_kept y (bothTasks X1 X2)); auto using hat_invertible. rewrite Forall_forall in WT. intros t u w Ht Hu Hw _ V.
  destruct (sameIndex_point y t u w HY (WT t Ht) (WT u Hu) Hw V) as (P & SP). symmetry. apply (surplus_agree y t u); auto.
Qed.

(** In particular the grids of a combination scheme, distributed to the systems in any way, keep the samples of a function. *)
Theorem C96_scheme : forall y esz extra third1 third2 ts1 ts2 X1 X2 chunk1 chunk2 sH1 sD1 sH2 sD2 X1' X2' f lmin lmax s, wfTcp y third1 third2 ts1 ts2 -> overlap y ts1 ts2 -> hatSetup y ->
  tcpReachable y esz extra third1 third2 ts1 ts2 X1 X2 -> 0 < chunk1 < 2 ^ 31 -> 0 < chunk2 < 2 ^ 31 ->
  Forall2 Z.le lmin lmax -> lmin <> [] -> Forall (fun x => 1 <= x) lmin -> schemeOf lmin lmax s -> sysTasksOf s (concat (ts1 ++ ts2)) ->
  (forall t w, In t (bothTasks X1 X2) -> isPoint y t w -> valueAt y t w = f (coordinates y (sLevel t) w)) ->
  combineTcpSystem y esz chunk1 chunk2 sH1 sD1 sH2 sD2 X1 X2 X1' X2' ->
  forall t w, In t (bothTasks X1' X2') -> isPoint y t w -> valueAt y t w = f (coordinates y (sLevel t) w).
Proof.
  intros y esz extra third1 third2 ts1 ts2 X1 X2 c1 c2 sH1 sD1 sH2 sD2 X1' X2' f lmin lmax s HW HO HH R H1 H2 F N P HS TO HF E. pose proof HW as (HY & HT & _). pose proof (tcp_wf y esz extra third1 third2 ts1 ts2 X1 X2 HW HO R) as WT.
  pose proof (tcp_same y esz extra third1 third2 ts1 ts2 X1 X2 HW HO R) as A. rewrite Forall_forall in WT.
  assert (G : Forall2 (sameValuesSys y) (bothTasks X1 X2) (bothTasks X1' X2')).
  { apply (C96_common_values_kept y esz extra third1 third2 ts1 ts2 X1 X2 c1 c2 sH1 sD1 sH2 sD2 X1' X2'); auto.
    - apply (scheme_unitySys y lmin lmax s); auto; [now apply Forall_forall|]. unfold bothTasks. rewrite <- concat_app. now apply (sameTasks_scheme s (ts1 ++ ts2)).
    - intros t u Ht Hu w w' Hw Hw' SP. rewrite !HF by auto. f_equal. unfold coordinates. apply map_ext_in. intros k Hk. apply dims_In in Hk. specialize (SP k Hk).
      destruct (WT t Ht) as (_ & LT & _). destruct (WT u Hu) as (_ & LU & _). specialize (LT k Hk). specialize (LU k Hk).
      assert (NZ : forall L, 0 <= L -> toQc (2 ^ L) <> 0%Qc).
      { intros L HL. pose proof (pow2_pos L HL). change 0%Qc with (toQc 0). intros X. apply toQc_inj in X. lia. }
      apply (f_equal toQc) in SP. rewrite !toQc_mul in SP.
      pose proof (NZ (nth k (sLevel t) 0) ltac:(lia)). pose proof (NZ (nth k (sLevel u) 0) ltac:(lia)).
      set (a := toQc (2 ^ nth k (sLevel t) 0)) in *. set (b := toQc (2 ^ nth k (sLevel u) 0)) in *.
      set (p := toQc (gridPos _ (nth k w 0))) in *. set (q := toQc (gridPos _ (nth k w' 0))) in *.
      transitivity (p * b / (a * b))%Qc; [field; split; auto|]. rewrite SP. field. split; auto. }
  intros t' w Ht' Hw. destruct (Forall2_In_r _ _ _ _ G Ht') as (t & Ht & (B1 & _ & B3)). rewrite B1 in *. assert (Hw' : isPoint y t w) by (unfold isPoint in *; now rewrite B1 in Hw).
  rewrite (B3 w Hw'). now apply HF.
Qed.

(** Combining what has just been combined. *)
Lemma combined_twice : forall y A A1 A2, wfSetup y -> invertible y -> Forall (wfTask y) A -> Forall (wfTask y) A1 -> unitySys y A -> Forall2 (combinedSys y A) A A1 -> Forall2 (combinedSys y A1) A1 A2 ->
  Forall2 (sameValuesSys y) A1 A2.
Proof.
  intros y A A1 A2 HY HI WT WT1 HU F F2. rewrite Forall_forall in WT.
  apply (combined_kept y A1); auto.
  - intros l t1 Hl Ht1 LE. destruct (Forall2_In_r _ _ _ _ F Ht1) as (t & Ht & (L1 & _ & _)).
    rewrite <- (HU l t Hl Ht) by (now rewrite <- L1).
    assert (F' : Forall2 (fun t t' => sLevel t' = sLevel t /\ sCoeff t' = sCoeff t) A A1) by (eapply Forall2_imp2; [|exact F]; intros a b (A0 & B0 & _); auto).
    clear - F'. induction F' as [|a b la lb (X & Y) G IH]; auto. cbn [map]. change (qsum (?a :: ?b)) with (a + qsum b)%Qc. now rewrite IH, X, Y.
  - intros t1 u1 w Ht1 Hu1 Hw IL V.
    destruct (Forall2_In_r _ _ _ _ F Ht1) as (t & Ht & (P1 & _ & P3)). destruct (Forall2_In_r _ _ _ _ F Hu1) as (u & Hu & (B1 & _ & B3)).
    rewrite P1, B1 in *. assert (Hw' : isPoint y t w) by (unfold isPoint in *; now rewrite P1 in Hw). clear Hw.
    destruct (sameIndex_point y t u w HY (WT t Ht) (WT u Hu) Hw' V) as (P & SP). set (w' := sameIndex y (sLevel t) (sLevel u) w) in *.
    assert (C : forall a a1 x, In a A -> (forall z, isPoint y a z -> valueAt y a1 z = nodal y (sLevel a) (combinedAt y A (fun u0 => surplus y (sLevel u0) (valueAt y u0)) a) z) ->
        isPoint y a x -> surplus y (sLevel a) (valueAt y a1) x = combinedAt y A (fun u0 => surplus y (sLevel u0) (valueAt y u0)) a x).
    { intros a a1 x Ha HA Hx. transitivity (surplus y (sLevel a) (nodal y (sLevel a) (combinedAt y A (fun u0 => surplus y (sLevel u0) (valueAt y u0)) a)) x).
      - unfold surplus. apply surplus_ext; auto.
      - now apply (roundtrip_sys y a true); auto. }
    rewrite (C t t1 w Ht P3 Hw'), (C u u1 w' Hu B3 P). unfold combinedAt. cbv zeta.
    rewrite (samePoint_level y t u w w') by auto. destruct (in_dec _ _ _) as [_|Y]; [|contradiction]. f_equal. apply map_ext_in. intros z Hz.
    rewrite (samePoint_index y t u z w w') by auto. reflexivity.
Qed.

(** A second combination right after the first changes nothing. *)
Theorem C96_second_combination : forall y esz extra third1 third2 ts1 ts2 X1 X2 chunk1 chunk2 sH1 sD1 sH2 sD2 Y1 Y2 chunk1' chunk2' sH1' sD1' sH2' sD2' Z1 Z2, wfTcp y third1 third2 ts1 ts2 -> overlap y ts1 ts2 -> invertible y ->
  tcpReachable y esz extra third1 third2 ts1 ts2 X1 X2 -> 0 < chunk1 < 2 ^ 31 -> 0 < chunk2 < 2 ^ 31 -> 0 < chunk1' < 2 ^ 31 -> 0 < chunk2' < 2 ^ 31 -> unitySys y (bothTasks X1 X2) ->
  combineTcpSystem y esz chunk1 chunk2 sH1 sD1 sH2 sD2 X1 X2 Y1 Y2 -> combineTcpSystem y esz chunk1' chunk2' sH1' sD1' sH2' sD2' Y1 Y2 Z1 Z2 ->
  Forall2 (sameValuesSys y) (bothTasks Y1 Y2) (bothTasks Z1 Z2).
Proof.
  intros y esz extra third1 third2 ts1 ts2 X1 X2 c1 c2 sH1 sD1 sH2 sD2 Y1 Y2 c1' c2' sH1' sD1' sH2' sD2' Z1 Z2 HW HO HI R H1 H2 H3 H4 HU E E'.
  destruct (tcp_result_sys y esz extra third1 third2 ts1 ts2 X1 X2 c1 c2 sH1 sD1 sH2 sD2 Y1 Y2 HW HO R H1 H2 E) as (_ & _ & F).
  assert (R1 : tcpReachable y esz extra third1 third2 ts1 ts2 Y1 Y2) by (exact (tsys_combine y esz extra third1 third2 ts1 ts2 X1 X2 c1 c2 sH1 sD1 sH2 sD2 Y1 Y2 R H1 H2 E)).
  destruct (tcp_result_sys y esz extra third1 third2 ts1 ts2 Y1 Y2 c1' c2' sH1' sD1' sH2' sD2' Z1 Z2 HW HO R1 H3 H4 E') as (_ & _ & F2).
  pose proof HW as (HY & _). pose proof (tcp_wf y esz extra third1 third2 ts1 ts2 X1 X2 HW HO R) as WT. pose proof (tcp_wf y esz extra third1 third2 ts1 ts2 Y1 Y2 HW HO R1) as WT1.
  now apply (combined_twice y (bothTasks X1 X2)).
Qed.

(** With conservative bases the combined integral over both systems stays, and every task of both systems gets it. *)
Theorem C96_mass : forall y esz extra third1 third2 ts1 ts2 X1 X2 chunk1 chunk2 sH1 sD1 sH2 sD2 X1' X2', wfTcp y third1 third2 ts1 ts2 -> overlap y ts1 ts2 ->
  tcpReachable y esz extra third1 third2 ts1 ts2 X1 X2 -> 0 < chunk1 < 2 ^ 31 -> 0 < chunk2 < 2 ^ 31 -> conservativeSetup y -> coarseCombined y (concat (ts1 ++ ts2)) -> unitySys y (concat (ts1 ++ ts2)) ->
  combineTcpSystem y esz chunk1 chunk2 sH1 sD1 sH2 sD2 X1 X2 X1' X2' ->
  (forall t', In t' (bothTasks X1' X2') -> massOf y t' = qsum (map (fun u => sCoeff u * massOf y u)%Qc (bothTasks X1 X2))) /\
  qsum (map (fun u => sCoeff u * massOf y u)%Qc (bothTasks X1' X2')) = qsum (map (fun u => sCoeff u * massOf y u)%Qc (bothTasks X1 X2)).
Proof.
  intros y esz extra third1 third2 ts1 ts2 X1 X2 c1 c2 sH1 sD1 sH2 sD2 X1' X2' HW HO R H1 H2 CS CM HU E. destruct (tcp_result_sys y esz extra third1 third2 ts1 ts2 X1 X2 c1 c2 sH1 sD1 sH2 sD2 X1' X2' HW HO R H1 H2 E) as (K1 & K2 & F).
  pose proof (tcp_wf y esz extra third1 third2 ts1 ts2 X1 X2 HW HO R) as WT. pose proof HW as (HY & HT & _). pose proof (tcp_same y esz extra third1 third2 ts1 ts2 X1 X2 HW HO R) as A.
  assert (K : sameTasks (nTasks X1 ++ nTasks X2) (nTasks X1' ++ nTasks X2')) by (now apply Forall2_app). unfold bothTasks in *. rewrite <- !concat_app in *. pose proof (coarse_same y _ _ A CM) as CM'.
  assert (HM : forall t', In t' (concat (nTasks X1' ++ nTasks X2')) -> massOf y t' = qsum (map (fun u => sCoeff u * massOf y u)%Qc (concat (nTasks X1 ++ nTasks X2)))).
  { intros t' Ht'. destruct (In_nth_error _ _ Ht') as [i Hi]. pose proof (Forall2_to_nth _ _ _ F i) as X. rewrite Hi in X. destruct (nth_error (concat (nTasks X1 ++ nTasks X2)) i) as [t|] eqn:Et; [|contradiction].
    apply (mass_combined y (concat (nTasks X1 ++ nTasks X2)) t); auto. eapply nth_error_In; eauto. }
  split; auto. rewrite (qsum_const sCoeff (massOf y) _ _ HM).
  assert (EC : forall a b, sameTasks a b -> map sCoeff (concat b) = map sCoeff (concat a)).
  { intros a b X. apply Forall2_concat' in X. revert X. generalize (concat a) (concat b). induction 1 as [|t t' l l' [d ->] X IH]; auto. cbn [map]. now rewrite IH. }
  rewrite (EC _ _ K), (EC _ _ A). rewrite (unity_one y (concat (ts1 ++ ts2))); auto; [ring|]. destruct HO as (t & u & Ht & _). rewrite concat_app. destruct (concat ts1); [destruct Ht|discriminate].
Qed.

(** ** Examples *)

(** The tasks of the example of C93, the systems now connected over the network. *)
Definition exN1 (y : Setup) (G1 G2 : list Z -> Qc) : list (list SysTask) := [[exTask y [2; 1] (toQc 1) G1]; [exTask y [1; 1] (toQc (-1)) G2]].
Definition exN2 (y : Setup) (G3 : list Z -> Qc) : list (list SysTask) := [[]; [exTask y [1; 2] (toQc 1) G3]].
Example C96_ex_hyps : forall G1 G2 G3, wfTcp exSetup 1 0 (exN1 exSetup G1 G2) (exN2 exSetup G3) /\ overlap exSetup (exN1 exSetup G1 G2) (exN2 exSetup G3) /\
  hatSetup exSetup /\ sysTasksOf (classicalScheme [1; 1] [2; 2]) (concat (exN1 exSetup G1 G2 ++ exN2 exSetup G3)).
Proof.
  intros G1 G2 G3. split; [|split; [|split]].
  - split; [exact exSetup_wf|]. split; [apply exTasks_wf|]. split; [cbn; lia|]. split; [cbn; lia|]. split.
    + intros p Hp. change (ranks exSetup) with 2%nat in Hp. assert (p = 0 \/ p = 1)%nat as [-> | ->] by lia; vm_compute; reflexivity.
    + vm_compute. reflexivity.
  - exists (exTask exSetup [2; 1] (toQc 1) G1), (exTask exSetup [1; 2] (toQc 1) G3). split; [now left|]. split; [now left|]. intros l F F'. cbn [exTask sLevel] in F, F'.
    inversion F as [|a b l1 m1 A FA]; subst. inversion FA as [|a2 b2 l2 m2 A2 FA2]; subst. inversion FA2; subst. inversion F' as [|? ? ? ? A' ?]; subst. left. f_equal; [lia|f_equal; lia].
  - exact (proj1 (proj2 (C74_ex_hyps VOutgroup))).
  - exact (proj1 (proj2 (proj2 (proj2 (C74_ex_hyps VOutgroup))))).
Qed.

(** The result of the executions, computed: values, integrals and the values after a second combination. *)
Definition runStartSys (y : Setup) (extra : bool) (ts1 ts2 : list (list SysTask)) : option (TcpSystem * TcpSystem) :=
  match mapO (initGroups VSparseGrid 8 (yLevels y)) (rankTasks y ts1), mapO (initGroups VSparseGrid 8 (yLevels y)) (rankTasks y ts2) with
  | Some ps1, Some ps2 =>
      let '(e1, e2) := afterRound idA idA (RUnify extra) {| blocks := []; sizes := concat (collectSizes 1 ps1) |} {| blocks := []; sizes := concat (collectSizes 0 ps2) |} in
      match sizesReceived extra 8 3 1 ps1 (sizes e1), sizesReceived extra 8 3 0 ps2 (sizes e2) with
      | Some X, Some Y => Some ({| nTasks := ts1; nSys := X |}, {| nTasks := ts2; nSys := Y |})
      | _, _ => None
      end
  | _, _ => None
  end.
Definition runCombineSys (y : Setup) (XX : TcpSystem * TcpSystem) : option (TcpSystem * TcpSystem) :=
  match sweepTasks y false exStale (nTasks (fst XX)), sweepTasks y false exStale (nTasks (snd XX)) with
  | Some u1, Some u2 =>
      match prepareSys 8 3 (yLevels y) (localSys y {| nTasks := u1; nSys := nSys (fst XX) |}), prepareSys 8 100 (yLevels y) (localSys y {| nTasks := u2; nSys := nSys (snd XX) |}) with
      | Some Q1, Some Q2 =>
          match blocksToSend Q1, blocksToSend Q2 with
          | Some b1, Some b2 =>
              let '(e1, e2) := afterRound idA idA RCombine {| blocks := b1; sizes := [] |} {| blocks := b2; sizes := [] |} in
              match receiveSys (yLevels y) (blocks e1) Q1, receiveSys (yLevels y) (blocks e2) Q2 with
              | Some R1, Some R2 =>
                  match sweepTasks y true exStale (gatherTasks u1 (map tGroups (tProcs R1))), sweepTasks y true exStale (gatherTasks u2 (map tGroups (tProcs R2))) with
                  | Some w1, Some w2 => Some ({| nTasks := w1; nSys := R1 |}, {| nTasks := w2; nSys := R2 |})
                  | _, _ => None
                  end
              | _, _ => None
              end
          | _, _ => None
          end
      | _, _ => None
      end
  | _, _ => None
  end.
Definition exNValues (y : Setup) (XX : TcpSystem * TcpSystem) : list (list (list (list Q))) := exWideValues y {| wTasks := [nTasks (fst XX); nTasks (snd XX)]; wProcs := [] |}.
(** The values are those of one system in [C72_ex]. *)
Example C96_ex : map (fun extra => match runStartSys exSetup extra (exN1 exSetup (exNum 1) (exNum 2)) (exN2 exSetup (exNum 5)) with
    | Some XX => option_map (exNValues exSetup) (runCombineSys exSetup XX)
    | None => None
    end) [true; false] = repeat (option_map fst (exWideResult exSetup)) 2.
Proof. vm_compute. reflexivity. Qed.
Example C96_ex_twice : match runStartSys exSetup true (exN1 exSetup (exNum 1) (exNum 2)) (exN2 exSetup (exNum 5)) with
    | Some XX => match runCombineSys exSetup XX with
                 | Some YY => option_map (exNValues exSetup) (runCombineSys exSetup YY) = Some (exNValues exSetup YY) /\ exNValues exSetup YY <> exNValues exSetup XX
                 | None => False
                 end
    | None => False
    end.
Proof. vm_compute. split; [reflexivity|discriminate]. Qed.
Example C96_ex_mass_hyps : let ts1 := exN1 exSetupFW (exNum 1) (exNum 2) in let ts2 := exN2 exSetupFW (exNum 5) in
  wfTcp exSetupFW 1 0 ts1 ts2 /\ overlap exSetupFW ts1 ts2 /\ conservativeSetup exSetupFW /\ coarseCombined exSetupFW (concat (ts1 ++ ts2)) /\ unitySys exSetupFW (concat (ts1 ++ ts2)).
Proof.
  intros ts1 ts2. destruct C91_ex_hyps as ((HY & HT & _) & CS & CM & HS & TO). destruct (C96_ex_hyps (exNum 1) (exNum 2) (exNum 5)) as ((_ & W) & O & _).
  split; [split; [exact HY|exact W]|]. split; [exact O|]. split; [exact CS|]. split; [exact CM|].
  apply (scheme_unitySys exSetupFW [1; 1] [2; 2] (classicalScheme [1; 1] [2; 2])); auto; [repeat constructor; lia|discriminate|repeat constructor; lia].
Qed.
Example C96_ex_mass : match runStartSys exSetupFW true (exN1 exSetupFW (exNum 1) (exNum 2)) (exN2 exSetupFW (exNum 5)) with
    | Some XX => option_map (fun YY => map (fun t => this (massOf exSetupFW t)) (bothTasks (fst YY) (snd YY))) (runCombineSys exSetupFW XX)
    | None => None
    end = Some [-1 # 2; -1 # 2; -1 # 2]%Q.
Proof. vm_compute. reflexivity. Qed.

Print Assumptions C96_points_to_exchange.
Print Assumptions C96_start.
Print Assumptions C96_combination.
Print Assumptions C96_as_one_system.
Print Assumptions C96_common_values_kept.
Print Assumptions C96_scheme.
Print Assumptions C96_second_combination.
Print Assumptions C96_mass.
