(** Property C95: the combination of two systems over the network. *)
From Verif Require Import Base TensorModel Level1dModel LevelSetsModel LevelSetsProofs SubspaceModel CombiSchemeModel Hier1dModel Hier1dProofs HierMassProofs
  DofProofs SparseGridModel SparseGridProofs CombineModel SparseTransferProofs SparseGridProps ReduceModel ReduceProofs VoteProofs SubspaceReduceProofs
  CombiStepModel CombiStepProofs CombiInitProofs CombiStepProps FileModel FileProps ExchangeModel ExchangeProps ThirdLevelModel ThirdLevelProps WideModel WideProofs WideStepProofs
  WideInitProofs WideProps TcpModel TcpProofs TcpInitProofs.
From Coq Require Import QArith Qcanon Permutation Relations.
Open Scope Z_scope.
Ltac Zify.zify_post_hook ::= idtac.

(** Number of points that process [p] exchanges: those of the levels that both systems contain if there is an extra sparse grid,
    otherwise those of the levels that one of them contains. *)
Definition heldBy (ts : list (list (list Comp))) (p : nat) (l : list Z) : bool := existsb (fun c => vleb l (gLevel (cGrid c))) (concat (nth p ts [])).
Definition exchangedPoints (extra : bool) (levels : list (list Z)) (ts1 ts2 : list (list (list Comp))) (p : nat) : Z :=
  zsum (map (fun l => if (if extra then heldBy ts1 p l && heldBy ts2 p l else heldBy ts1 p l || heldBy ts2 p l) then pointsAt [ts1; ts2] p l else 0) levels).

(** Two systems with [np] processes per group, the third level group among the groups, and less than 2^31 points in all. *)
Definition tcpFits (dim : nat) (levels : list (list Z)) (np third1 third2 : nat) (ts1 ts2 : list (list (list Comp))) : Prop :=
  (length ts1 = np /\ length ts2 = np) /\
  (forall p gs, nth_error ts1 p = Some gs -> (third1 < length gs)%nat) /\ (forall p gs, nth_error ts2 p = Some gs -> (third2 < length gs)%nat) /\
  (forall p, (p < np)%nat -> tasksFit dim (tasksOfProcess [ts1; ts2] p) /\ zsum (map (pointsAt [ts1; ts2] p) levels) < 2 ^ 31 - 1) /\
  zsum (map (fun p => zsum (map (pointsAt [ts1; ts2] p) levels)) (seq 0 np)) < 2 ^ 31.

Definition solvedT (p p' : TProc) : Prop := Forall2 solved (tGroups p) (tGroups p') /\ tExtra p' = tExtra p.
Definition solvedSys (S S' : TSys) : Prop := tThird S' = tThird S /\ tCounts S' = tCounts S /\ Forall2 solvedT (tProcs S) (tProcs S').

Inductive reachableTcp (esz : Z) (levels : list (list Z)) (extra : bool) (third1 third2 : nat) (ts1 ts2 : list (list (list Comp))) : TSys -> TSys -> Prop :=
| tcp_init : forall S1 S2, startTcp esz levels extra third1 third2 ts1 ts2 S1 S2 -> reachableTcp esz levels extra third1 third2 ts1 ts2 S1 S2
| tcp_solve : forall S1 S2 S1' S2', reachableTcp esz levels extra third1 third2 ts1 ts2 S1 S2 -> solvedSys S1 S1' -> solvedSys S2 S2' -> reachableTcp esz levels extra third1 third2 ts1 ts2 S1' S2'
| tcp_combine : forall S1 S2 chunk1 chunk2 S1' S2', reachableTcp esz levels extra third1 third2 ts1 ts2 S1 S2 -> 0 < chunk1 < 2 ^ 31 -> 0 < chunk2 < 2 ^ 31 ->
    combineTcp esz levels chunk1 chunk2 S1 S2 S1' S2' -> reachableTcp esz levels extra third1 third2 ts1 ts2 S1' S2'.

(** The processes of a system, to speak about their tasks. *)
Definition asProcs (S : TSys) : list Proc := map (fun p => {| pGroups := tGroups p; pExtra := match tExtra p with Some e => e | None => initDSG 0 end |}) (tProcs S).
Definition bothSystems (S1 S2 : TSys) : list (list Proc) := [asProcs S1; asProcs S2].

Lemma tasksHeld_as : forall S p, tasksHeld (asProcs S) p = tTasks S p.
Proof. intros S p. unfold tasksHeld, tTasks, asProcs. rewrite nth_error_map'. destruct (nth_error (tProcs S) p); reflexivity. Qed.
Lemma allHeld_both : forall S1 S2 p, allHeld (bothSystems S1 S2) p = tTasks S1 p ++ tTasks S2 p.
Proof. intros. unfold allHeld, bothSystems. cbn [flat_map]. now rewrite !tasksHeld_as, app_nil_r. Qed.

Section Tcp.
Variables (dim : nat) (rest : list (list Z)).
Let levels := repeat 1 dim :: rest.
Hypothesis HL : sortedLevels dim levels.
Hypothesis HP : Forall (Forall (Z.le 1)) levels.
Variables (extra : bool) (esz : Z) (np third1 third2 : nat) (ts1 ts2 : list (list (list Comp))).
Hypothesis HF : tcpFits dim levels np third1 third2 ts1 ts2.
Let cnt := pointsAt [ts1; ts2].
Let U := agreed dim rest extra cnt ts1 ts2.

Lemma U_sum : forall p, zsum (U p) = exchangedPoints extra levels ts1 ts2 p.
Proof. reflexivity. Qed.
Lemma tcp_good : forall p ts, In ts [ts1; ts2] -> (p < np)%nat -> Forall (tasksOk dim (cnt p)) (nth p ts []).
Proof.
  intros p ts Hts Hp. destruct HF as (_ & _ & _ & HT & _). destruct (HT p Hp) as (T & _). pose proof (tasks_ok dim (tasksOfProcess [ts1; ts2] p) T) as TO. rewrite Forall_forall in TO. apply Forall_forall. intros cs Hcs. apply TO.
  unfold tasksOfProcess. apply in_concat. exists (nth p ts []). split; auto. apply in_map_iff. exists ts. split; auto.
Qed.
Lemma tcp_cnt : forall p q, 0 <= cnt p q < 2 ^ 32.
Proof.
  intros p q. destruct (Nat.lt_ge_cases p np) as [H|H].
  - destruct HF as (_ & _ & _ & HT & _). destruct (HT p H) as ((_ & _ & T) & _). now apply cntOf_range.
  - unfold cnt, pointsAt. assert (N : tasksOfProcess [ts1; ts2] p = []); [|rewrite N; cbn; lia]. unfold tasksOfProcess. destruct HF as ((L1 & L2) & _). cbn [map concat]. now rewrite !nth_overflow by lia.
Qed.
Lemma tcp_startOk : forall third ts, In ts [ts1; ts2] -> length ts = np -> (forall p gs, nth_error ts p = Some gs -> (third < length gs)%nat) -> startOk dim np cnt third ts.
Proof.
  intros third ts Hts L H. split; auto. intros p gs Eg. split; [|eauto]. assert (Hp : (p < np)%nat) by (rewrite <- L; apply nth_error_Some; congruence). pose proof (tcp_good p ts Hts Hp) as X. now rewrite (nth_error_nth ts p [] Eg) in X.
Qed.
Lemma tcp_sums : (forall p, (p < np)%nat -> zsum (map (cnt p) levels) < 2 ^ 31 - 1) /\ zsum (map (fun p => zsum (map (cnt p) levels)) (seq 0 np)) < 2 ^ 31.
Proof. destruct HF as (_ & _ & _ & HT & H). split; auto. intros p Hp. apply HT; auto. Qed.

Definition sameGrids (ts : list (list (list Comp))) (S : TSys) : Prop :=
  forall p pr, nth_error (tProcs S) p = Some pr -> Forall2 (Forall2 (fun c c' => cGrid c' = cGrid c)) (nth p ts []) (map gTasks (tGroups pr)).
Definition tcpInv (S1 S2 : TSys) : Prop := tsInv dim rest extra esz np cnt U third1 S1 /\ tsInv dim rest extra esz np cnt U third2 S2 /\ sameGrids ts1 S1 /\ sameGrids ts2 S2.

Lemma tcpInv_uOk : forall S1 S2, tcpInv S1 S2 -> uOk dim rest np cnt U S1 S2.
Proof.
  intros S1 S2 (I1 & I2 & G1 & G2) p i c c' Hp Hi HC Hc Hc' Hl Hl'.
  assert (HELD : forall ts S c, In ts [ts1; ts2] -> sameGrids ts S -> In c (tTasks S p) -> containsL c (nth (Z.to_nat i) levels []) -> heldIn (nth (Z.to_nat i) levels []) (concat (nth p ts [])) = true).
  { clear c c' Hc Hc' Hl Hl'. intros ts S c Hts G Hc Hl. unfold tTasks in Hc. destruct (nth_error (tProcs S) p) as [pr|] eqn:Epr; [|destruct Hc]. specialize (G p pr Epr).
    unfold allTasks in Hc. apply in_flat_map in Hc. destruct Hc as (g & Hg & Hc). destruct (Forall2_In_r _ _ _ (gTasks g) G) as (cs & Hcs & F); [now apply in_map|]. destruct (Forall2_In_r _ _ _ c F Hc) as (c0 & Hc0 & EG).
    apply (held_contains c0); [apply in_concat; eauto|]. unfold containsL in *. now rewrite <- EG. }
  pose proof (HELD ts1 S1 c ltac:(now left) G1 Hc Hl) as H1. pose proof (HELD ts2 S2 c' ltac:(right; now left) G2 Hc' Hl') as H2.
  unfold U. rewrite (agreed_nth dim rest extra cnt ts1 ts2 p i Hi). change (nth (Z.to_nat i) (repeat 1 dim :: rest) []) with (nth (Z.to_nat i) levels []) in *. rewrite H1, H2. unfold both. destruct extra; cbn [andb orb]; lia.
Qed.

Lemma tcp_start : exists S1 S2, startTcp esz levels extra third1 third2 ts1 ts2 S1 S2 /\ (forall S1' S2', startTcp esz levels extra third1 third2 ts1 ts2 S1' S2' -> S1' = S1 /\ S2' = S2) /\ tcpInv S1 S2 /\
  map (fun pr => map gTasks (tGroups pr)) (tProcs S1) = ts1 /\ map (fun pr => map gTasks (tGroups pr)) (tProcs S2) = ts2.
Proof.
  pose proof HF as ((L1 & L2) & T1 & T2 & _). destruct tcp_sums as [B1 B2].
  pose proof (tcp_startOk third1 ts1 ltac:(now left) L1 T1) as O1. pose proof (tcp_startOk third2 ts2 ltac:(right; now left) L2 T2) as O2.
  destruct (startTcp_spec dim rest HL HP extra esz np cnt tcp_cnt B1 B2 third1 third2 ts1 ts2 O1 O2) as (ps1 & ps2 & S1 & S2 & _ & _ & _ & ST & UQ & I1 & I2 & G1 & G2).
  exists S1, S2. split; auto. split; auto.
  assert (Q : forall ts S, length ts = np -> length (tProcs S) = np -> (forall p gs, nth_error ts p = Some gs -> exists pr, nth_error (tProcs S) p = Some pr /\ map gTasks (tGroups pr) = gs) ->
     sameGrids ts S /\ map (fun pr => map gTasks (tGroups pr)) (tProcs S) = ts).
  { clear. intros ts S L LP G. split.
    - intros p pr Epr. destruct (nth_error_lt ts p) as (gs & Eg); [rewrite L, <- LP; apply nth_error_Some; congruence|]. destruct (G p gs Eg) as (pr' & Epr' & M). rewrite Epr in Epr'. injection Epr' as <-. rewrite M, (nth_error_nth ts p _ Eg).
      clear. induction gs as [|g gs IH]; constructor; auto. induction g; constructor; auto.
    - apply nth_ext with (d := []) (d' := []); [rewrite map_length; lia|]. intros p Hp. rewrite map_length in Hp. destruct (nth_error_lt ts p ltac:(lia)) as (gs & Eg). destruct (G p gs Eg) as (pr & Epr & M).
      rewrite (nth_error_nth ts p _ Eg). rewrite (nth_error_nth _ p (x := map gTasks (tGroups pr))) by (rewrite nth_error_map'; now rewrite Epr). exact M. }
  pose proof I1 as (_ & LP1 & _). pose proof I2 as (_ & LP2 & _). destruct (Q ts1 S1 L1 LP1 G1) as [Q1 Q2]. destruct (Q ts2 S2 L2 LP2 G2) as [Q3 Q4]. split; [|split; auto]. unfold tcpInv. auto.
Qed.

Lemma tInv_solve : forall third p pr pr', (p < np)%nat -> solvedT pr pr' -> tInv dim rest extra esz cnt U third p pr -> tInv dim rest extra esz cnt U third p pr'.
Proof.
  intros third p pr pr' Hp [F EX] [(A & B & C & D & S & S2 & S3) SH]. destruct HF as (_ & _ & _ & HB & _). destruct (HB p Hp) as (TF & _). cbn [virt pGroups pExtra] in *. split; [unfold procInv; cbn [virt pGroups pExtra]; rewrite EX|].
  - assert (GO : Forall (groupOk dim rest (cnt p)) (tGroups pr')).
    { apply Forall_forall. intros g' Hg'. destruct (Forall2_In_r _ _ _ _ F Hg') as (g & Hg & (X & Y & _)). rewrite Forall_forall in A. destruct (A g Hg) as (T & DD & SO).
      split; [exact (solved_tasksOk dim (tasksOfProcess [ts1; ts2] p) _ _ X T)|]. rewrite Y. split; auto. exact (solved_sizesOk dim rest (tasksOfProcess [ts1; ts2] p) _ _ _ X SO). }
    split; auto. split; [|split; [|split; [|split; [|split]]]]; auto.
    + apply (same_sameSizes (tGroups pr)); auto. now apply solved_same.
    + apply Forall2_length in F. lia.
    + intros g' i Hg' Hi. destruct (Forall2_In_r _ _ _ _ F Hg') as (g & Hg & (_ & Y & _)). rewrite Y. auto.
    + intros g' Hg'. destruct (Forall2_In_r _ _ _ _ F Hg') as (g & Hg & (_ & Y & _)). rewrite Y. auto.
  - unfold shapeOk in *. rewrite EX. destruct extra; auto. destruct SH as [SH SZ]. split; auto. intros g' Hg'. destruct (Forall2_In_r _ _ _ _ F Hg') as (g & Hg & (_ & Y & _)). rewrite Y. auto.
Qed.
Lemma tsInv_solve : forall third ts S S', solvedSys S S' -> tsInv dim rest extra esz np cnt U third S -> sameGrids ts S -> tsInv dim rest extra esz np cnt U third S' /\ sameGrids ts S'.
Proof.
  intros third ts S S' (ET & EC & F) (A & B & C & D) G. assert (LF : length (tProcs S) = length (tProcs S')) by (eapply Forall2_length; exact F).
  assert (Q : forall p pr', nth_error (tProcs S') p = Some pr' -> (p < np)%nat /\ exists pr, nth_error (tProcs S) p = Some pr /\ solvedT pr pr').
  { intros p pr' Ep. assert (Hp : (p < np)%nat) by (rewrite <- B, LF; apply nth_error_Some; congruence). split; auto. destruct (nth_error_lt (tProcs S) p ltac:(lia)) as (pr & Epr). destruct (Forall2_nth_some _ _ _ F p pr Epr) as (pr1 & E1 & SP). rewrite Ep in E1. injection E1 as <-. eauto. }
  split.
  - split; [congruence|]. split; [lia|]. split; [congruence|]. intros p pr' Ep. destruct (Q p pr' Ep) as (Hp & pr & Epr & SP). apply (tInv_solve third p pr); auto.
  - intros p pr' Ep. destruct (Q p pr' Ep) as (Hp & pr & Epr & SP). apply (groups_trans _ (tGroups pr) _ solvedTask (G p pr Epr)); [|apply solvedTask_spec]. destruct SP as [SP _]. eapply Forall2_imp2; [|exact SP]. intros g g' (X & _). exact X.
Qed.

Lemma stepped_grids : forall W ts third S S', tsInv dim rest extra esz np cnt U third S -> tsInv dim rest extra esz np cnt U third S' -> steppedSys dim rest W S S' -> sameGrids ts S -> sameGrids ts S'.
Proof.
  intros W ts third S S' (_ & L & _) (_ & L' & _) ST G p pr' Ep. destruct (nth_error_lt (tProcs S) p) as (pr & Epr); [rewrite L, <- L'; apply nth_error_Some; congruence|]. destruct (ST p pr Epr) as (pr1 & E1 & FG). rewrite Ep in E1. injection E1 as <-.
  apply (groups_trans _ (tGroups pr) _ (updated (W p) (fun l => In l levels)) (G p pr Epr)).
  - eapply Forall2_imp2; [|exact FG]. intros g g' (X & _). exact X.
  - intros c c' X. now apply updated_shape in X.
Qed.

Lemma tcp_combined : forall S1 S2 mc1 mc2, tcpInv S1 S2 -> 0 < mc1 < 2 ^ 31 -> 0 < mc2 < 2 ^ 31 -> (forall p, (p < np)%nat -> 0 < exchangedPoints extra levels ts1 ts2 p) ->
  exists R1 R2 b1 b2 S1' S2', prepareSys esz mc1 levels S1 = Some R1 /\ prepareSys esz mc2 levels S2 = Some R2 /\ blocksToSend R1 = Some b1 /\ blocksToSend R2 = Some b2 /\
    matching RCombine {| blocks := b1; sizes := [] |} {| blocks := b2; sizes := [] |} /\
    combineTcp esz levels mc1 mc2 S1 S2 S1' S2' /\ (forall S1'' S2'', combineTcp esz levels mc1 mc2 S1 S2 S1'' S2'' -> S1'' = S1' /\ S2'' = S2') /\ tcpInv S1' S2' /\
    everyTask (fun p => combinedTask levels (allHeld (bothSystems S1 S2) p)) (bothSystems S1 S2) (bothSystems S1' S2').
Proof.
  intros S1 S2 mc1 mc2 I HM1 HM2 HU. pose proof (tcpInv_uOk S1 S2 I) as UO. destruct I as (I1 & I2 & G1 & G2).
  destruct (combineTcp_spec dim rest HL HP extra esz np cnt U tcp_cnt mc1 mc2 third1 third2 S1 S2 HM1 HM2 I1 I2 UO HU) as (R1 & R2 & b1 & b2 & S1' & S2' & E1 & E2 & B1 & B2 & M & CT & UQ & I1' & I2' & ST1 & ST2).
  exists R1, R2, b1, b2, S1', S2'. split; auto. split; auto. split; auto. split; auto. split; auto. split; auto. split; auto. split.
  - split; auto. split; auto. split; [now apply (stepped_grids _ ts1 third1 S1 S1' I1 I1' ST1)|now apply (stepped_grids _ ts2 third2 S2 S2' I2 I2' ST2)].
  - assert (Q : forall S S', length (tProcs S) = np -> length (tProcs S') = np -> steppedSys dim rest (fun k => weightedSum (tTasks S1 k ++ tTasks S2 k)) S S' -> length (asProcs S') = length (asProcs S) /\
       forall p pr, nth_error (asProcs S) p = Some pr -> exists pr', nth_error (asProcs S') p = Some pr' /\ Forall2 (fun g g' => Forall2 (combinedTask levels (allHeld (bothSystems S1 S2) p)) (gTasks g) (gTasks g')) (pGroups pr) (pGroups pr')).
    { intros S S' L L' ST. unfold asProcs. split; [rewrite !map_length; congruence|]. intros p pr Epr. rewrite nth_error_map' in Epr. destruct (nth_error (tProcs S) p) as [tp|] eqn:Et; [|discriminate]. injection Epr as <-.
      destruct (ST p tp Et) as (tp' & Et' & FG). rewrite nth_error_map', Et'. eexists. split; [reflexivity|]. cbn [pGroups]. eapply Forall2_imp2; [|exact FG]. intros g g' (X & _). eapply Forall2_imp2; [|exact X]. intros c c' Hc. rewrite allHeld_both. now apply steppedTask_combined. }
    destruct I1 as (_ & L1 & _), I2 as (_ & L2 & _), I1' as (_ & L1' & _), I2' as (_ & L2' & _).
    split; [reflexivity|]. intros [|[|s]] ps Es; cbn [bothSystems nth_error] in Es; [| |destruct s; discriminate]; injection Es as <-; eexists; (split; [reflexivity|]); auto.
Qed.

Lemma tcp_not_combined : forall S1 S2 mc1 mc2 p, tcpInv S1 S2 -> 0 < mc1 < 2 ^ 31 -> 0 < mc2 < 2 ^ 31 -> (p < np)%nat -> exchangedPoints extra levels ts1 ts2 p <= 0 ->
  forall S1' S2', ~ combineTcp esz levels mc1 mc2 S1 S2 S1' S2'.
Proof.
  intros S1 S2 mc1 mc2 p (I1 & I2 & _) HM1 HM2 Hp HZ. rewrite <- U_sum in HZ. apply (combineTcp_none dim rest HL HP extra esz np cnt U tcp_cnt mc1 mc2 third1 third2 S1 S2 p); auto.
  assert (0 <= zsum (U p)); [|lia]. apply zsum_nonneg. apply (fit_nonneg dim rest 0 np cnt tcp_cnt (proj1 tcp_sums) p). apply agreed_fit.
Qed.

Lemma reachableTcp_inv : forall S1 S2, reachableTcp esz levels extra third1 third2 ts1 ts2 S1 S2 -> tcpInv S1 S2.
Proof.
  intros S1 S2 H. induction H as [S1 S2 ST|S1 S2 S1' S2' H IH F1 F2|S1 S2 mc1 mc2 S1' S2' H IH HM1 HM2 CT].
  - destruct tcp_start as (S1' & S2' & _ & UQ & I & _). destruct (UQ S1 S2 ST) as [-> ->]. exact I.
  - destruct IH as (I1 & I2 & G1 & G2). destruct (tsInv_solve third1 ts1 S1 S1' F1 I1 G1). destruct (tsInv_solve third2 ts2 S2 S2' F2 I2 G2). unfold tcpInv. auto.
  - destruct (forallb (fun p => 0 <? exchangedPoints extra levels ts1 ts2 p) (seq 0 np)) eqn:EU.
    + rewrite forallb_forall in EU. destruct (tcp_combined S1 S2 mc1 mc2 IH HM1 HM2) as (R1 & R2 & b1 & b2 & T1 & T2 & _ & _ & _ & _ & _ & _ & UQ & I & _).
      * intros p Hp. apply Z.ltb_lt, EU, in_seq. lia.
      * destruct (UQ _ _ CT) as [-> ->]. exact I.
    + exfalso. assert (X : exists p, (p < np)%nat /\ exchangedPoints extra levels ts1 ts2 p <= 0).
      { assert (Y : forall l, forallb (fun p => 0 <? exchangedPoints extra levels ts1 ts2 p) l = false -> exists p, In p l /\ exchangedPoints extra levels ts1 ts2 p <= 0).
        { clear. induction l as [|q l IH]; intros H; [discriminate|]. cbn [forallb] in H. destruct (Z.ltb_spec 0 (exchangedPoints extra levels ts1 ts2 q)) as [A|A]; [destruct (IH H) as (p & Hp & Q); exists p; split; auto; now right|exists q; split; auto; now left]. }
        destruct (Y _ EU) as (p & Hp & Q). apply in_seq in Hp. exists p. split; [lia|auto]. }
      destruct X as (p & Hp & Q). now apply (tcp_not_combined S1 S2 mc1 mc2 p IH HM1 HM2 Hp Q S1' S2').
Qed.

(** Whenever the combination is completed. *)
Lemma tcp_result : forall S1 S2 mc1 mc2 S1' S2', reachableTcp esz levels extra third1 third2 ts1 ts2 S1 S2 -> 0 < mc1 < 2 ^ 31 -> 0 < mc2 < 2 ^ 31 -> combineTcp esz levels mc1 mc2 S1 S2 S1' S2' ->
  everyTask (fun p => combinedTask levels (allHeld (bothSystems S1 S2) p)) (bothSystems S1 S2) (bothSystems S1' S2').
Proof.
  intros S1 S2 mc1 mc2 S1' S2' HR HM1 HM2 CT. pose proof (reachableTcp_inv S1 S2 HR) as I.
  assert (HU : forall p, (p < np)%nat -> 0 < exchangedPoints extra levels ts1 ts2 p).
  { intros p Hp. destruct (Z_lt_le_dec 0 (exchangedPoints extra levels ts1 ts2 p)) as [X|X]; auto. exfalso. now apply (tcp_not_combined S1 S2 mc1 mc2 p I HM1 HM2 Hp X S1' S2'). }
  destruct (tcp_combined S1 S2 mc1 mc2 I HM1 HM2 HU) as (R1 & R2 & b1 & b2 & T1 & T2 & _ & _ & _ & _ & _ & _ & UQ & _ & E). destruct (UQ _ _ CT) as [-> ->]. exact E.
Qed.

Lemma tcp_held_good : forall S1 S2 p c, tcpInv S1 S2 -> In c (allHeld (bothSystems S1 S2) p) -> goodComp dim c /\ forall l, containsL c l -> Z.of_nat (length (pointsOf c l)) = cnt p l.
Proof.
  intros S1 S2 p c (I1 & I2 & _) Hc. rewrite allHeld_both in Hc. apply in_app_or in Hc.
  assert (Q : forall third S, tsInv dim rest extra esz np cnt U third S -> In c (tTasks S p) -> goodComp dim c /\ forall l, containsL c l -> Z.of_nat (length (pointsOf c l)) = cnt p l).
  { intros third S (_ & _ & _ & I) H. unfold tTasks in H. destruct (nth_error (tProcs S) p) as [pr|] eqn:Epr; [|destruct H]. destruct (I p pr Epr) as [(A & _) _]. cbn [virt pGroups] in A. unfold allTasks in H. apply in_flat_map in H. destruct H as (g & Hg & H).
    rewrite Forall_forall in A. destruct (A g Hg) as ((G & C) & _). rewrite Forall_forall in G. split; auto. }
  destruct Hc as [Hc|Hc]; [exact (Q third1 S1 I1 Hc)|exact (Q third2 S2 I2 Hc)].
Qed.
End Tcp.

(** ** C95 *)

(** Registering the tasks, agreeing on the sizes within both systems and unifying them over the network succeeds, in every
    execution with the same result, and leaves the tasks as they are. *)
Theorem C95_start : forall esz dim rest extra np third1 third2 ts1 ts2, let levels := repeat 1 dim :: rest in
  sortedLevels dim levels -> Forall (Forall (Z.le 1)) levels -> tcpFits dim levels np third1 third2 ts1 ts2 ->
  exists S1 S2, startTcp esz levels extra third1 third2 ts1 ts2 S1 S2 /\ (forall S1' S2', startTcp esz levels extra third1 third2 ts1 ts2 S1' S2' -> S1' = S1 /\ S2' = S2) /\
    map (fun pr => map gTasks (tGroups pr)) (tProcs S1) = ts1 /\ map (fun pr => map gTasks (tGroups pr)) (tProcs S2) = ts2.
Proof. intros esz dim rest extra np third1 third2 ts1 ts2 levels HL HP HF. destruct (tcp_start dim rest HL HP extra esz np third1 third2 ts1 ts2 HF) as (S1 & S2 & A & B & _ & C & D). exists S1, S2. auto. Qed.

(** In every state that can be reached, if every process has points to exchange, the combination gives, in every execution,
    every task of both systems at the points of the sparse grid's subspaces the weighted sum over the tasks of both systems. *)
Theorem C95_combination_partial : forall esz dim rest extra np third1 third2 ts1 ts2 S1 S2 chunk1 chunk2, let levels := repeat 1 dim :: rest in
  sortedLevels dim levels -> Forall (Forall (Z.le 1)) levels -> tcpFits dim levels np third1 third2 ts1 ts2 -> reachableTcp esz levels extra third1 third2 ts1 ts2 S1 S2 ->
  0 < chunk1 < 2 ^ 31 -> 0 < chunk2 < 2 ^ 31 -> (forall p, (p < np)%nat -> 0 < exchangedPoints extra levels ts1 ts2 p) ->
  exists S1' S2', combineTcp esz levels chunk1 chunk2 S1 S2 S1' S2' /\ (forall S1'' S2'', combineTcp esz levels chunk1 chunk2 S1 S2 S1'' S2'' -> S1'' = S1' /\ S2'' = S2') /\
    everyTask (fun p => combinedTask levels (allHeld (bothSystems S1 S2) p)) (bothSystems S1 S2) (bothSystems S1' S2').
Proof.
  intros esz dim rest extra np third1 third2 ts1 ts2 S1 S2 chunk1 chunk2 levels HL HP HF HR H1 H2 HU. pose proof (reachableTcp_inv dim rest HL HP extra esz np third1 third2 ts1 ts2 HF S1 S2 HR) as I.
  destruct (tcp_combined dim rest HL HP extra esz np third1 third2 ts1 ts2 HF S1 S2 chunk1 chunk2 I H1 H2 HU) as (R1 & R2 & b1 & b2 & S1' & S2' & _ & _ & _ & _ & _ & A & B & _ & C). eauto.
Qed.

(** The messages of that combination: no execution of the managers and the third level manager gets stuck, or goes on forever. *)
Theorem C95_exchange_ends_partial : forall esz dim rest extra np third1 third2 ts1 ts2 S1 S2 chunk1 chunk2, let levels := repeat 1 dim :: rest in
  sortedLevels dim levels -> Forall (Forall (Z.le 1)) levels -> tcpFits dim levels np third1 third2 ts1 ts2 -> reachableTcp esz levels extra third1 third2 ts1 ts2 S1 S2 ->
  0 < chunk1 < 2 ^ 31 -> 0 < chunk2 < 2 ^ 31 -> (forall p, (p < np)%nat -> 0 < exchangedPoints extra levels ts1 ts2 p) ->
  exists R1 R2 b1 b2, prepareSys esz chunk1 levels S1 = Some R1 /\ prepareSys esz chunk2 levels S2 = Some R2 /\ blocksToSend R1 = Some b1 /\ blocksToSend R2 = Some b2 /\
    let n0 := startNet [RCombine] {| blocks := b1; sizes := [] |} {| blocks := b2; sizes := [] |} in
    Acc (fun t s => netStep s t) n0 /\
    forall s, clos_refl_trans net netStep n0 s -> (exists t, netStep s t) \/ exists e1 e2, sys1 s = SDone e1 /\ sys2 s = SDone e2.
Proof.
  intros esz dim rest extra np third1 third2 ts1 ts2 S1 S2 chunk1 chunk2 levels HL HP HF HR H1 H2 HU. pose proof (reachableTcp_inv dim rest HL HP extra esz np third1 third2 ts1 ts2 HF S1 S2 HR) as I.
  destruct (tcp_combined dim rest HL HP extra esz np third1 third2 ts1 ts2 HF S1 S2 chunk1 chunk2 I H1 H2 HU) as (R1 & R2 & b1 & b2 & S1' & S2' & A1 & A2 & B1 & B2 & M & _). fold levels in A1, A2.
  exists R1, R2, b1, b2. split; auto. split; auto. split; auto. split; auto. cbv zeta.
  assert (AM : allMatching idC idC idA idA [RCombine] {| blocks := b1; sizes := [] |} {| blocks := b2; sizes := [] |}) by (cbn [allMatching]; split; [exact M|destruct (afterRound _ _ _ _ _); exact Logic.I]).
  split; [exact (C42_terminates idC idC idA idA [RCombine] _ _ AM)|]. intros s HS. destruct (C42_no_deadlock idC idC idA idA [RCombine] _ _ s AM HS) as [X|X]; [now left|right]. rewrite X. cbn [sys1 sys2]. eauto.
Qed.

(** A process without points to exchange: the managers throw, and the combination is completed in no execution. *)
Theorem C95_empty_process_refuted : forall esz dim rest extra np third1 third2 ts1 ts2 S1 S2 chunk1 chunk2 p, let levels := repeat 1 dim :: rest in
  sortedLevels dim levels -> Forall (Forall (Z.le 1)) levels -> tcpFits dim levels np third1 third2 ts1 ts2 -> reachableTcp esz levels extra third1 third2 ts1 ts2 S1 S2 ->
  0 < chunk1 < 2 ^ 31 -> 0 < chunk2 < 2 ^ 31 -> (p < np)%nat -> exchangedPoints extra levels ts1 ts2 p = 0 ->
  forall S1' S2', ~ combineTcp esz levels chunk1 chunk2 S1 S2 S1' S2'.
Proof.
  intros esz dim rest extra np third1 third2 ts1 ts2 S1 S2 chunk1 chunk2 p levels HL HP HF HR H1 H2 Hp HZ. pose proof (reachableTcp_inv dim rest HL HP extra esz np third1 third2 ts1 ts2 HF S1 S2 HR) as I.
  apply (tcp_not_combined dim rest HL HP extra esz np third1 third2 ts1 ts2 HF S1 S2 chunk1 chunk2 p); auto. unfold levels in HZ. lia.
Qed.

(** The totals are compared in int: if all processes together have 2^31 values or more after the unification, but not before, the manager
    takes the new total for smaller, and throws. *)
Lemma fold_i32 : forall l acc, fold_left (fun a s => i32 (a + s)) l (i32 acc) = i32 (acc + zsum l).
Proof.
  induction l as [|x l IH]; intros acc; cbn [fold_left]; [change (zsum []) with 0; f_equal; lia|]. change (zsum (x :: l)) with (x + zsum l). rewrite Z.add_assoc, <- IH. f_equal. unfold i32.
  replace ((acc + 2 ^ 31) mod 2 ^ 32 - 2 ^ 31 + x + 2 ^ 31) with ((acc + 2 ^ 31) mod 2 ^ 32 + x) by lia. rewrite Z.add_mod_idemp_l by lia. do 2 f_equal. lia.
Qed.
Theorem C95_total_overflow_refuted : forall esz n third ps tables, let own := collectSizes third ps in
  map (@length Z) tables = map (@length Z) own -> Forall (fun t => Forall (fun s => 0 <= s) t /\ zsum t < 2 ^ 31) own -> Forall (fun t => Forall (fun s => 0 <= s) t /\ zsum t < 2 ^ 31) tables ->
  zsum (map zsum own) < 2 ^ 31 -> 2 ^ 31 <= zsum (map zsum tables) < 2 ^ 32 ->
  sizesReceived false esz n third ps (concat tables) = None.
Proof.
  intros esz n third ps tables own HLN HO HT T1 T2. unfold sizesReceived. fold own. cbv zeta. rewrite (C41_manager_counts_partial own HO). rewrite <- HLN. rewrite (C41_manager_counts_partial tables HT). unfold sizesCheck, accumulateInts.
  assert (NN : Forall (fun s => 0 <= s) (map zsum own)) by (apply Forall_forall; intros x Hx; apply in_map_iff in Hx; destruct Hx as (t & <- & Ht); apply zsum_nonneg; rewrite Forall_forall in HO; now apply HO).
  rewrite (accumulate_small (map zsum own) 0 ltac:(lia) NN ltac:(lia)). change (fold_left (fun a s => i32 (a + s)) (map zsum tables) 0) with (fold_left (fun a s => i32 (a + s)) (map zsum tables) (i32 0)). rewrite fold_i32.
  pose proof (zsum_nonneg _ NN). assert (E : i32 (0 + zsum (map zsum tables)) = zsum (map zsum tables) - 2 ^ 32).
  { unfold i32. replace (0 + zsum (map zsum tables) + 2 ^ 31) with (zsum (map zsum tables) - 2 ^ 31 + 1 * 2 ^ 32) by lia. rewrite Z.mod_add by lia. rewrite Z.mod_small by lia. lia. }
  rewrite E. destruct (Z.leb_spec (0 + zsum (map zsum own)) (zsum (map zsum tables) - 2 ^ 32)); [lia|reflexivity].
Qed.

(** One system with the same tasks, whatever their distribution to groups and the variant, gets the same values. *)
Theorem C95_as_one_system : forall esz dim rest extra np third1 third2 ts1 ts2 S1 S2 chunk1 chunk2 S1' S2' v esz1 tasks1 gs chunk order gs', let levels := repeat 1 dim :: rest in
  sortedLevels dim levels -> Forall (Forall (Z.le 1)) levels -> tcpFits dim levels np third1 third2 ts1 ts2 -> reachableTcp esz levels extra third1 third2 ts1 ts2 S1 S2 ->
  0 < chunk1 < 2 ^ 31 -> 0 < chunk2 < 2 ^ 31 -> combineTcp esz levels chunk1 chunk2 S1 S2 S1' S2' ->
  tasksFit dim tasks1 -> variantFits v levels tasks1 -> reachable v esz1 levels tasks1 gs -> 0 < chunk < 2 ^ 31 -> anyOrder gs order ->
  combineStep v esz1 chunk order levels gs = Some gs' ->
  forall p, Permutation (allHeld (bothSystems S1 S2) p) (allTasks gs) ->
  forall c c1 c2, In (c, c1) (combine (allHeld (bothSystems S1 S2) p) (allHeld (bothSystems S1' S2') p)) -> In (c, c2) (combine (allTasks gs) (allTasks gs')) -> sameValues c1 c2.
Proof.
  intros esz dim rest extra np third1 third2 ts1 ts2 S1 S2 chunk1 chunk2 S1' S2' v esz1 tasks1 gs chunk order gs' levels HL HP HF HR HM1 HM2 CT HT HV HR1 HCh HO E1 p PM c c1 c2 H1 H2.
  pose proof (tcp_result dim rest HL HP extra esz np third1 third2 ts1 ts2 HF S1 S2 chunk1 chunk2 S1' S2' HR HM1 HM2 CT) as FW.
  destruct (C31_combination_step v esz1 dim rest tasks1 gs chunk order HL HP HT HV HR1 HCh HO) as (g1 & EG & FG). fold levels in EG, FG. rewrite E1 in EG. injection EG as <-.
  apply (stepped_pairs levels (allTasks gs)) in H2; auto. destruct H2 as [Hc2 H2].
  apply (combined_same dim levels (allHeld (bothSystems S1 S2) p) (allTasks gs) c); auto.
  - now apply (reachable_good v esz1 dim rest tasks1 gs HL HP HT HV HR1).
  - intros l j. now apply weightedSum_perm.
  - exact (proj2 (Forall2_combine_In _ _ _ _ _ (everyTask_held _ _ _ p FW) H1)).
Qed.

(** Values on which both systems agree stay as they are, if the coefficients of both systems together add up to one on every subspace. *)
Theorem C95_projection : forall esz dim rest extra np third1 third2 ts1 ts2 S1 S2 chunk1 chunk2 S1' S2', let levels := repeat 1 dim :: rest in
  sortedLevels dim levels -> Forall (Forall (Z.le 1)) levels -> tcpFits dim levels np third1 third2 ts1 ts2 -> reachableTcp esz levels extra third1 third2 ts1 ts2 S1 S2 ->
  0 < chunk1 < 2 ^ 31 -> 0 < chunk2 < 2 ^ 31 -> combineTcp esz levels chunk1 chunk2 S1 S2 S1' S2' ->
  (forall p, consistent levels (allHeld (bothSystems S1 S2) p) /\ unity levels (allHeld (bothSystems S1 S2) p)) ->
  everyTask (fun _ => sameValues) (bothSystems S1 S2) (bothSystems S1' S2').
Proof.
  intros esz dim rest extra np third1 third2 ts1 ts2 S1 S2 chunk1 chunk2 S1' S2' levels HL HP HF HR HM1 HM2 CT CU. pose proof (reachableTcp_inv dim rest HL HP extra esz np third1 third2 ts1 ts2 HF S1 S2 HR) as I.
  pose proof (tcp_result dim rest HL HP extra esz np third1 third2 ts1 ts2 HF S1 S2 chunk1 chunk2 S1' S2' HR HM1 HM2 CT) as (L & F). set (ws := bothSystems S1 S2) in *. set (ws' := bothSystems S1' S2') in *. fold levels in F.
  assert (K : forall p c c', In c (allHeld ws p) -> combinedTask levels (allHeld ws p) c c' -> sameValues c c').
  { intros p c c' Hc (EG & _ & _ & V). split; auto. intros k Hk. assert (G : forall x, In x (allHeld ws p) -> goodComp dim x) by (intros x Hx; apply (tcp_held_good dim rest extra esz np third1 third2 ts1 ts2 S1 S2 p x I Hx)).
    destruct (points_cover dim c k (G c Hc) Hk) as (l & j & Hl & Hj & <-). destruct (V l j Hl Hj) as [A B]. destruct (CU p) as [CO UN].
    destruct (in_dec (list_eq_dec Z.eq_dec) l levels) as [Y|Y]; [|auto]. rewrite A by auto. apply (weightedSum_consistent dim levels); auto. apply Forall_forall. exact G. }
  split; auto. intros s ps Es. destruct (F s ps Es) as (ps' & Es' & LP & G). exists ps'. split; auto. split; auto. intros p pr Epr. destruct (G p pr Epr) as (pr' & Epr' & FG). exists pr'. split; auto.
  apply (nested_imp (combinedTask levels (allHeld ws p))); auto. intros c c' Hc. apply K. unfold allHeld. apply in_flat_map. exists ps. split; [now apply nth_error_In in Es|]. unfold tasksHeld. now rewrite Epr.
Qed.

(** After any combination the tasks of both systems have the same values at common points. *)
Theorem C95_consistent : forall esz dim rest extra np third1 third2 ts1 ts2 S1 S2 chunk1 chunk2 S1' S2', let levels := repeat 1 dim :: rest in
  sortedLevels dim levels -> Forall (Forall (Z.le 1)) levels -> tcpFits dim levels np third1 third2 ts1 ts2 -> reachableTcp esz levels extra third1 third2 ts1 ts2 S1 S2 ->
  0 < chunk1 < 2 ^ 31 -> 0 < chunk2 < 2 ^ 31 -> combineTcp esz levels chunk1 chunk2 S1 S2 S1' S2' -> forall p, consistent levels (allHeld (bothSystems S1' S2') p).
Proof.
  intros esz dim rest extra np third1 third2 ts1 ts2 S1 S2 chunk1 chunk2 S1' S2' levels HL HP HF HR HM1 HM2 CT p. pose proof (reachableTcp_inv dim rest HL HP extra esz np third1 third2 ts1 ts2 HF S1 S2 HR) as I.
  pose proof (tcp_result dim rest HL HP extra esz np third1 third2 ts1 ts2 HF S1 S2 chunk1 chunk2 S1' S2' HR HM1 HM2 CT) as FW.
  apply (combined_consistent levels (allHeld (bothSystems S1 S2) p)); [exact (everyTask_held _ _ _ p FW)|]. intros c c' l Hc Hc' Hl Hl'.
  destruct (tcp_held_good dim rest extra esz np third1 third2 ts1 ts2 S1 S2 p c I Hc) as [_ A], (tcp_held_good dim rest extra esz np third1 third2 ts1 ts2 S1 S2 p c' I Hc') as [_ A']. apply Nat2Z.inj. rewrite A, A'; auto.
Qed.

(** ** Examples *)
From Verif Require Import DecompModel SystemModel SystemProofs SystemProps.

(** The tasks of [exWide], with and without extra sparse grids. The third level group is group 1 of the first system, and group 0 of the second one. *)
Definition exT1 : list (list (list Comp)) := nth 0 exWide [].
Definition exT2 : list (list (list Comp)) := nth 1 exWide [].
Example C95_ex_hyps : tcpFits 2 (yLevels exSetup) 2 1 0 exT1 exT2 /\ (forall p extra, (p < 2)%nat -> 0 < exchangedPoints extra (yLevels exSetup) exT1 exT2 p) /\ 0 < 3 < 2 ^ 31.
Proof.
  assert (HP : forall p, (p < 2)%nat -> tasksOfProcess [exT1; exT2] p = concat (exW (Z.of_nat p))) by (intros [|[|p]] Hp; try lia; reflexivity).
  split; [|split; [|lia]].
  - split; [split; reflexivity|]. split; [intros [|[|[|p]]] gs Eg; cbn in Eg; try discriminate; injection Eg as <-; cbn; lia|]. split; [intros [|[|[|p]]] gs Eg; cbn in Eg; try discriminate; injection Eg as <-; cbn; lia|]. split.
    + intros p Hp. split; [rewrite HP by auto; apply exW_fit; lia|]. assert (p = 0 \/ p = 1)%nat as [-> | ->] by lia; vm_compute; reflexivity.
    + vm_compute. reflexivity.
  - intros p extra Hp. assert (p = 0 \/ p = 1)%nat as [-> | ->] by lia; destruct extra; vm_compute; reflexivity.
Qed.
(** The result of the executions, computed. *)
Definition runStart (extra : bool) : option (TSys * TSys) :=
  match mapO (initGroups VSparseGrid 8 (yLevels exSetup)) exT1, mapO (initGroups VSparseGrid 8 (yLevels exSetup)) exT2 with
  | Some ps1, Some ps2 =>
      let '(e1, e2) := afterRound idA idA (RUnify extra) {| blocks := []; sizes := concat (collectSizes 1 ps1) |} {| blocks := []; sizes := concat (collectSizes 0 ps2) |} in
      match sizesReceived extra 8 3 1 ps1 (sizes e1), sizesReceived extra 8 3 0 ps2 (sizes e2) with X, Y => match X with Some S1 => option_map (pair S1) Y | None => None end end
  | _, _ => None
  end.
Definition runCombine (SS : TSys * TSys) : option (TSys * TSys) :=
  match prepareSys 8 3 (yLevels exSetup) (fst SS), prepareSys 8 100 (yLevels exSetup) (snd SS) with
  | Some R1, Some R2 =>
      match blocksToSend R1, blocksToSend R2 with
      | Some b1, Some b2 =>
          let '(e1, e2) := afterRound idA idA RCombine {| blocks := b1; sizes := [] |} {| blocks := b2; sizes := [] |} in
          match receiveSys (yLevels exSetup) (blocks e1) R1, receiveSys (yLevels exSetup) (blocks e2) R2 with
          | Some S1', Some S2' => Some (S1', S2')
          | _, _ => None
          end
      | _, _ => None
      end
  | _, _ => None
  end.
Lemma runCombine_spec : forall S1 S2 S1' S2' R1 R2 b1 b2, runCombine (S1, S2) = Some (S1', S2') -> prepareSys 8 3 (yLevels exSetup) S1 = Some R1 -> prepareSys 8 100 (yLevels exSetup) S2 = Some R2 ->
  blocksToSend R1 = Some b1 -> blocksToSend R2 = Some b2 -> matching RCombine {| blocks := b1; sizes := [] |} {| blocks := b2; sizes := [] |} -> combineTcp 8 (yLevels exSetup) 3 100 S1 S2 S1' S2'.
Proof.
  intros S1 S2 S1' S2' R1 R2 b1 b2 H E1 E2 B1 B2 M. unfold runCombine in H. cbn [fst snd] in H. rewrite E1, E2, B1, B2 in H. destruct (afterRound _ _ _ _ _) as [e1 e2] eqn:EA.
  destruct (receiveSys (yLevels exSetup) (blocks e1) R1) eqn:X1; [|discriminate]. destruct (receiveSys (yLevels exSetup) (blocks e2) R2) eqn:X2; [|discriminate]. injection H as -> ->.
  exists R1, R2, b1, b2, e1, e2. split; auto. split; auto. split; auto. split; auto. split; [apply exchanged_iff; auto|]. auto.
Qed.
(** The same values as with the exchange through files, also after a second combination; the processes expect and send different numbers of values. *)
Example C95_ex : map (fun extra => match runStart extra with
    | Some SS => match runCombine SS with
                 | Some TT => Some (tCounts (fst SS), tCounts (snd SS), exShow (bothSystems (fst TT) (snd TT)), option_map (fun UU => exShow (bothSystems (fst UU) (snd UU))) (runCombine TT))
                 | None => None
                 end
    | None => None
    end) [true; false] = [Some ([3; 6], [3; 6], exCombined, Some exCombined); Some ([8; 13], [8; 13], exCombined, Some exCombined)].
Proof. vm_compute. reflexivity. Qed.

(** The premises of the theorems: states that can be reached, and the combination of them. *)
Example C95_ex_reachable : forall extra, exists S1 S2 S1' S2', reachableTcp 8 (yLevels exSetup) extra 1 0 exT1 exT2 S1 S2 /\ combineTcp 8 (yLevels exSetup) 3 100 S1 S2 S1' S2'.
Proof.
  intros extra. destruct C95_ex_hyps as (HF & HU & _). pose proof exSetup_wf as (_ & _ & _ & _ & _ & _ & HL & HP).
  destruct (C95_start 8 2 [[1; 2]; [2; 1]] extra 2 1 0 exT1 exT2 HL HP HF) as (S1 & S2 & ST & _). exists S1, S2.
  destruct (C95_combination_partial 8 2 [[1; 2]; [2; 1]] extra 2 1 0 exT1 exT2 S1 S2 3 100 HL HP HF (tcp_init _ _ _ _ _ _ _ _ _ ST) ltac:(lia) ltac:(lia)) as (S1' & S2' & C & _); [intros p Hp; now apply HU|].
  exists S1', S2'. split; [now apply tcp_init|exact C].
Qed.

(** Both systems with one group of two processes and the grid of level (2,1) without boundary points, the sparse grid reduced to level (1,1): the first process
    has only a point of level (2,1). *)
Definition exBare : Setup :=
  {| yProcs := [2; 1]; yBnds := [0; 0]; yRef := [2; 1]; yDecs := [[0; 1]; [0]]; yDims := [true; true]; yBases := [Hat; Hat]; yLmin := [0; 0]; yLevels := [[1; 1]] |}.
Definition exBareTasks (a : Z) : list (list (list Comp)) := map (fun r => [[localTask exBare r (exTask exBare [2; 1] (Q2Qc (1 # 2)) (exNum a))]]) [0; 1].
Lemma exBare_wf : wfSetup exBare.
Proof.
  split; [cbn; lia|]. split; [reflexivity|]. split; [reflexivity|]. split; [|split; [|split; [|split]]].
  - split; [reflexivity|]. split; [reflexivity|]. intros [|[|i]] Hi; cbn in Hi; try lia; (split; [reflexivity|]; split; [reflexivity|split]).
    + intros [|[|i]] [|[|j]] H; cbn in *; lia.
    + intros [|[|i]] H; cbn in *; lia.
    + intros [|i] [|j] H; cbn in *; lia.
    + intros [|i] H; cbn in *; lia.
  - intros [|[|k]] Hk; cbn in *; try lia; intuition lia.
  - exists []. reflexivity.
  - split; repeat constructor; lia.
  - repeat constructor; lia.
Qed.
Example C95_empty_process_ex : tcpFits 2 [[1; 1]] 2 0 0 (exBareTasks 1) (exBareTasks 2) /\ (forall extra, exchangedPoints extra [[1; 1]] (exBareTasks 1) (exBareTasks 2) 0 = 0) /\
  (exists S1 S2, reachableTcp 8 [[1; 1]] true 0 0 (exBareTasks 1) (exBareTasks 2) S1 S2).
Proof.
  pose proof exBare_wf as WF. pose proof WF as (_ & _ & _ & _ & _ & _ & HL & HP).
  assert (WT : forall c G, wfTask exBare (exTask exBare [2; 1] c G)).
  { intros c G. apply exTask_wf; auto.
    - intros [|[|k]] Hk; cbn in *; lia.
    - exact (proj1 (proj2 (proj2 (proj2 WF)))).
    - intros r Hr. change (zprod (yProcs exBare)) with 2 in Hr. assert (r = 0 \/ r = 1) as [-> | ->] by lia; vm_compute; reflexivity. }
  assert (F : tcpFits 2 [[1; 1]] 2 0 0 (exBareTasks 1) (exBareTasks 2)).
  { split; [split; reflexivity|]. split; [intros [|[|[|p]]] gs Eg; cbn in Eg; try discriminate; injection Eg as <-; cbn; lia|]. split; [intros [|[|[|p]]] gs Eg; cbn in Eg; try discriminate; injection Eg as <-; cbn; lia|]. split.
    - intros p Hp. split; [|assert (p = 0 \/ p = 1)%nat as [-> | ->] by lia; vm_compute; reflexivity].
      assert (E : tasksOfProcess [exBareTasks 1; exBareTasks 2] p = map (map (localTask exBare (Z.of_nat p))) [[exTask exBare [2; 1] (Q2Qc (1 # 2)) (exNum 1)]; [exTask exBare [2; 1] (Q2Qc (1 # 2)) (exNum 2)]]) by (destruct p as [|[|p]]; [reflexivity|reflexivity|lia]).
      rewrite E. apply (local_tasksFit exBare _ (Z.of_nat p) WF); [change (zprod (yProcs exBare)) with 2; lia|]. cbn [concat app]. constructor; [apply WT|constructor; [apply WT|constructor]].
    - vm_compute. reflexivity. }
  split; auto. split; [intros []; vm_compute; reflexivity|]. destruct (C95_start 8 2 [] true 2 0 0 (exBareTasks 1) (exBareTasks 2) HL HP F) as (S1 & S2 & ST & _). exists S1, S2. now apply tcp_init.
Qed.

(** One process with 2^30 values before and 2^31 - 1 after the unification, and one with 2^29 and one more. *)
Definition exBig (s : Z) : list Group := [{| gTasks := []; gDsg := {| dSizes := [s]; dWith := []; dPtr := [None]; dLen := 0; dData := zeroA; dKPtr := [None]; dKLen := 0; dKahan := zeroA |}; gComms := [] |}].
Example C95_total_overflow_ex : let ps := [exBig (2 ^ 30); exBig (2 ^ 29)] in let tables := [[2 ^ 31 - 1]; [2 ^ 29 + 1]] in
  map (@length Z) tables = map (@length Z) (collectSizes 0 ps) /\ Forall (fun t => Forall (fun s => 0 <= s) t /\ zsum t < 2 ^ 31) (collectSizes 0 ps) /\ Forall (fun t => Forall (fun s => 0 <= s) t /\ zsum t < 2 ^ 31) tables /\
  zsum (map zsum (collectSizes 0 ps)) < 2 ^ 31 /\ 2 ^ 31 <= zsum (map zsum tables) < 2 ^ 32.
Proof. cbv zeta. split; [reflexivity|]. split; [|split; [|split; [reflexivity|split; [discriminate|reflexivity]]]]; repeat constructor; try discriminate. Qed.

Print Assumptions C95_start.
Print Assumptions C95_combination_partial.
Print Assumptions C95_exchange_ends_partial.
Print Assumptions C95_empty_process_refuted.
Print Assumptions C95_total_overflow_refuted.
Print Assumptions C95_as_one_system.
Print Assumptions C95_projection.
Print Assumptions C95_consistent.
