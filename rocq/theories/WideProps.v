(** Property C92: the combination of several systems through files. *)
From Verif Require Import Base TensorModel Level1dModel LevelSetsModel LevelSetsProofs SubspaceModel CombiSchemeModel Hier1dModel Hier1dProofs HierMassProofs
  DofProofs SparseGridModel SparseGridProofs CombineModel SparseTransferProofs SparseGridProps ReduceModel ReduceProofs VoteProofs SubspaceReduceProofs
  CombiStepModel CombiStepProofs CombiInitProofs CombiStepProps FileModel FileProps ExchangeModel ExchangeProps WideModel WideProofs WideStepProofs WideInitProofs.
From Coq Require Import QArith Qcanon Permutation.
Open Scope Z_scope.
Ltac Zify.zify_post_hook ::= idtac.

(** The tasks are given by system, process, group and position. [tasksOfProcess p] are the groups of all systems, with the parts of
    their tasks that the processes with number [p] hold. *)
Definition tasksOfProcess (tasks : list (list (list (list Comp)))) (p : nat) : list (list Comp) := concat (map (fun ts => nth p ts []) tasks).
Definition pointsAt (tasks : list (list (list (list Comp)))) (p : nat) (l : list Z) : Z := cntOf (concat (tasksOfProcess tasks p)) l.

(** Number of systems with a task that contains the level, and number of points process [p] has of the levels that two or more
    systems contain: the size of its part of the files. *)
Definition systemsWith (tasks : list (list (list (list Comp)))) (p : nat) (l : list Z) : nat :=
  length (filter (fun ts => existsb (fun c => vleb l (gLevel (cGrid c))) (concat (nth p ts []))) tasks).
Definition sharedPoints (levels : list (list Z)) (tasks : list (list (list (list Comp)))) (p : nat) : Z :=
  zsum (map (fun l => if (2 <=? systemsWith tasks p l)%nat then pointsAt tasks p l else 0) levels).

(** Two or three systems with the same number of processes per group, the output group among the groups, and buffers of less
    than 2^31 elements. *)
Definition wideFits (dim : nat) (levels : list (list Z)) (np : nat) (conf : nat -> Conf) (tasks : list (list (list (list Comp)))) : Prop :=
  (length tasks = 2 \/ length tasks = 3)%nat /\ Z.of_nat (length levels) < 2 ^ 31 /\
  (forall s ts, nth_error tasks s = Some ts -> length ts = np /\ Permutation (fOrder (conf s)) (seq 0 np) /\
     forall p gs, nth_error ts p = Some gs -> (fOut (conf s) < length gs)%nat) /\
  forall p, (p < np)%nat -> tasksFit dim (tasksOfProcess tasks p) /\ zsum (map (pointsAt tasks p) levels) < 2 ^ 31 - 1 /\
    forall l, In l levels -> 3 * pointsAt tasks p l < 2 ^ 32.

(** A system's parameters of one combination: all processes need the same number of reads for their parts of a file, a file
    left over from before is not longer than the new one, and the files of the others appear some day. *)
Definition confFits (levels : list (list Z)) (np : nat) (tasks : list (list (list (list Comp)))) (fuel : nat) (old : option (list Qc)) (c : Conf) : Prop :=
  0 < fChunk c < 2 ^ 31 /\ (1 <= fBuffer c)%nat /\
  (forall p, (p < np)%nat -> (numReads (Z.to_nat (sharedPoints levels tasks p)) (fBuffer c) <= fuel)%nat) /\
  (forall p p', (p < np)%nat -> (p' < np)%nat ->
     numReads (Z.to_nat (sharedPoints levels tasks p)) (fBuffer c) = numReads (Z.to_nat (sharedPoints levels tasks p')) (fBuffer c)) /\
  Permutation (fOrder c) (seq 0 np) /\
  (length (openToWrite old false) <= length (concat (map (fun p => repeat 0%Z (Z.to_nat (sharedPoints levels tasks p))) (seq 0 np))))%nat /\
  exists T, (forall t i, (T <= t)%nat -> (i < length tasks - 1)%nat -> fQuery c t i = true) /\ (T + (length tasks - 1) <= fuel)%nat.

Definition solvedProc (pr pr' : Proc) : Prop := Forall2 solved (pGroups pr) (pGroups pr') /\ pExtra pr' = pExtra pr.

(** The states of all systems that can be reached by computing and combining. *)
Inductive reachableWide (esz : Z) (levels : list (list Z)) (np fuel : nat) (conf : nat -> Conf) (tasks : list (list (list (list Comp)))) : list (list Proc) -> Prop :=
| wide_init : forall ws, startWide esz levels conf tasks = Some ws -> reachableWide esz levels np fuel conf tasks ws
| wide_solve : forall ws ws', reachableWide esz levels np fuel conf tasks ws -> Forall2 (Forall2 solvedProc) ws ws' -> reachableWide esz levels np fuel conf tasks ws'
| wide_combine : forall ws ws' conf' olds, reachableWide esz levels np fuel conf tasks ws ->
    (forall s, (s < length tasks)%nat -> fOut (conf' s) = fOut (conf s) /\ confFits levels np tasks fuel (olds s) (conf' s)) ->
    combineWide esz levels conf' fuel olds ws = Some ws' -> reachableWide esz levels np fuel conf tasks ws'.

(** All tasks of all systems, with the values that the processes with number [p] hold. *)
Definition tasksHeld (ps : list Proc) (p : nat) : list Comp := match nth_error ps p with Some pr => flat_map gTasks (pGroups pr) | None => [] end.
Definition allHeld (ws : list (list Proc)) (p : nat) : list Comp := flat_map (fun ps => tasksHeld ps p) ws.

(** The processes and tasks of a state that correspond to those of another. *)
Definition everyTask (P : nat -> Comp -> Comp -> Prop) (ws ws' : list (list Proc)) : Prop :=
  length ws' = length ws /\ forall s ps, nth_error ws s = Some ps -> exists ps', nth_error ws' s = Some ps' /\ length ps' = length ps /\
    forall p pr, nth_error ps p = Some pr -> exists pr', nth_error ps' p = Some pr' /\ Forall2 (fun g g' => Forall2 (P p) (gTasks g) (gTasks g')) (pGroups pr) (pGroups pr').

Lemma everyTask_held : forall P ws ws' p, everyTask P ws ws' -> Forall2 (P p) (allHeld ws p) (allHeld ws' p).
Proof.
  intros P ws ws' p [L F]. unfold allHeld. revert ws' L F. induction ws as [|ps ws IH]; intros [|ps' ws'] L F; cbn [length] in L; try lia; [constructor|]. cbn [flat_map]. apply Forall2_app.
  - destruct (F 0%nat ps eq_refl) as (ps1 & E1 & LP & G). injection E1 as <-. unfold tasksHeld. destruct (nth_error ps p) as [pr|] eqn:Epr.
    + destruct (G p pr Epr) as (pr' & Epr' & FG). rewrite Epr'. clear - FG. induction FG as [|g g' gs gs' A F IH]; [constructor|]. cbn [flat_map]. apply Forall2_app; auto.
    + apply nth_error_None in Epr. rewrite <- LP in Epr. apply nth_error_None in Epr. rewrite Epr. constructor.
  - apply IH; [lia|]. intros s. exact (F (S s)).
Qed.
Lemma Forall2_nth_some : forall {A B} (P : A -> B -> Prop) l l', Forall2 P l l' -> forall k a, nth_error l k = Some a -> exists b, nth_error l' k = Some b /\ P a b.
Proof. intros A B P l l' F. induction F as [|x y l l' H F IH]; intros [|k] a E; cbn in *; try discriminate; [injection E as <-; eauto|auto]. Qed.
Lemma Forall2_combine_In : forall {A B} (P : A -> B -> Prop) l l' a b, Forall2 P l l' -> In (a, b) (combine l l') -> In a l /\ P a b.
Proof. intros A B P l l' a b F. induction F as [|x y l l' H F IH]; intros I; [destruct I|]. destruct I as [I|I]; [injection I as <- <-; split; auto; now left|]. destruct (IH I). split; auto. now right. Qed.

Section Wide.
Variables (dim : nat) (rest : list (list Z)).
Let levels := repeat 1 dim :: rest.
Hypothesis HL : sortedLevels dim levels.
Hypothesis HP : Forall (Forall (Z.le 1)) levels.
Variables (esz : Z) (np fuel : nat) (conf : nat -> Conf) (tasks : list (list (list (list Comp)))).
Hypothesis HF : wideFits dim levels np conf tasks.
Let cnt := pointsAt tasks.
Let E := sharedSizes dim rest cnt tasks.

Lemma shared_E : forall p, zsum (E p) = sharedPoints levels tasks p.
Proof. reflexivity. Qed.
Lemma wide_good : forall p s ts, nth_error tasks s = Some ts -> (p < np)%nat -> Forall (tasksOk dim (cnt p)) (nth p ts []).
Proof.
  intros p s ts Es Hp. destruct HF as (_ & _ & _ & HT). destruct (HT p Hp) as (T & _). pose proof (tasks_ok dim (tasksOfProcess tasks p) T) as TO. rewrite Forall_forall in TO. apply Forall_forall. intros cs Hcs. apply TO.
  unfold tasksOfProcess. apply in_concat. exists (nth p ts []). split; auto. apply in_map_iff. exists ts. split; auto. now apply nth_error_In in Es.
Qed.
Lemma wide_cnt : forall p q, 0 <= cnt p q < 2 ^ 32.
Proof.
  intros p q. destruct (Nat.lt_ge_cases p np) as [H|H].
  - destruct HF as (_ & _ & _ & HT). destruct (HT p H) as ((_ & _ & T) & _). now apply cntOf_range.
  - unfold cnt, pointsAt. assert (N : tasksOfProcess tasks p = []); [|rewrite N; cbn; lia]. unfold tasksOfProcess. destruct HF as (_ & _ & HS & _).
    assert (X : forall ts, In ts tasks -> nth p ts [] = []). { intros ts Hts. apply In_nth_error in Hts. destruct Hts as (s & Es). destruct (HS s ts Es) as (L & _). apply nth_overflow. lia. }
    clear - X. induction tasks as [|t l IH]; auto. cbn [map concat]. rewrite (X t) by now left. rewrite IH; auto. intros ts Hts. apply X. now right.
Qed.

Definition wideInv (ws : list (list Proc)) : Prop := length ws = length tasks /\ forall s ts, nth_error tasks s = Some ts ->
  exists ps, nth_error ws s = Some ps /\ sysInv dim rest np cnt E (fOut (conf s)) ps /\
    forall p pr, nth_error ps p = Some pr -> Forall2 (Forall2 (fun c c' => cGrid c' = cGrid c)) (nth p ts []) (map gTasks (pGroups pr)).

Lemma wideInv_shared : forall ws, wideInv ws -> sharedOk dim rest np cnt E ws.
Proof.
  intros ws (L & W) s s' ps ps' p i c c' Es Es' Hp Hi Hc Hc' Hl Hl' N HC.
  assert (HELD : forall s ps c, nth_error ws s = Some ps -> In c (procTasks ps p) -> containsL c (nth (Z.to_nat i) levels []) -> exists ts, nth_error tasks s = Some ts /\ heldIn (nth (Z.to_nat i) levels []) (concat (nth p ts [])) = true).
  { clear s s' ps ps' c c' Es Es' Hc Hc' Hl Hl' N. intros s ps c Es Hc Hl. destruct (nth_error_lt tasks s) as (ts & Ets); [rewrite <- L; apply nth_error_Some; congruence|]. exists ts. split; auto.
    destruct (W s ts Ets) as (ps0 & E0 & _ & G). rewrite Es in E0. injection E0 as <-. unfold procTasks in Hc. destruct (nth_error ps p) as [pr|] eqn:Epr; [|destruct Hc]. specialize (G p pr Epr).
    unfold allTasks in Hc. apply in_flat_map in Hc. destruct Hc as (g & Hg & Hc). destruct (Forall2_In_r _ _ _ (gTasks g) G) as (cs & Hcs & F); [now apply in_map|]. destruct (Forall2_In_r _ _ _ c F Hc) as (c0 & Hc0 & EG).
    unfold heldIn. apply existsb_exists. exists c0. split; [apply in_concat; eauto|]. pose proof (wide_good p s ts Ets Hp) as T. rewrite Forall_forall in T. destruct (T cs Hcs) as [GC _]. rewrite Forall_forall in GC.
    apply (lvl_contains dim rest HL HP c0 i); auto. unfold containsL in *. now rewrite <- EG. }
  destruct (HELD s ps c Es Hc Hl) as (ts & Ets & H). destruct (HELD s' ps' c' Es' Hc' Hl') as (ts' & Ets' & H').
  pose proof (two_in_filter (fun ts => heldIn (nth (Z.to_nat i) levels []) (concat (nth p ts []))) tasks s s' ts ts' Ets Ets' N H H') as TW.
  unfold E, sharedSizes. rewrite (mapLv (fun l => if (2 <=? holdingSystems tasks p l)%nat then cnt p l else 0) (repeat 1 dim :: rest) i Hi). unfold holdingSystems. fold levels.
  destruct (Nat.leb_spec 2 (length (filter (fun ts => heldIn (nth (Z.to_nat i) levels []) (concat (nth p ts []))) tasks))); [|lia]. change (nth (Z.to_nat i) (repeat 1 dim :: rest) []) with (nth (Z.to_nat i) levels []) in HC. lia.
Qed.

Lemma wide_start : exists ws, startWide esz levels conf tasks = Some ws /\ map (map (fun pr => map gTasks (pGroups pr))) ws = tasks /\ wideInv ws.
Proof.
  destruct HF as (HS & HN & HT & HB). destruct (startWide_spec dim rest HL HP HN np cnt wide_cnt esz conf tasks HS) as (ws & EW & LW & FW).
  - intros p Hp. apply HB; auto.
  - intros p l Hp Hl. destruct (HB p Hp) as (_ & _ & X). auto.
  - intros s ts Es. destruct (HT s ts Es) as (A & B & C). split; auto. split; auto. intros p gs Eg. assert (Hp : (p < np)%nat) by (rewrite <- A; apply nth_error_Some; congruence). split; [|eauto].
    pose proof (wide_good p s ts Es Hp) as X. rewrite (nth_error_nth ts p [] Eg) in X. exact X.
  - exists ws. split; auto. split.
    + apply nth_ext with (d := []) (d' := []); [now rewrite map_length|]. intros s Hs. rewrite map_length in Hs. destruct (nth_error_lt tasks s ltac:(lia)) as (ts & Es). destruct (FW s ts Es) as (ps & Eps & (LP & _) & G). destruct (HT s ts Es) as (LT & _).
      rewrite (nth_error_nth tasks s _ Es). rewrite (nth_error_nth _ s (x := map (fun pr => map gTasks (pGroups pr)) ps)) by (rewrite nth_error_map'; now rewrite Eps).
      apply nth_ext with (d := []) (d' := []); [rewrite map_length; lia|]. intros p Hp. rewrite map_length in Hp. destruct (nth_error_lt ts p ltac:(lia)) as (gs & Eg). destruct (G p gs Eg) as (pr & Epr & M).
      rewrite (nth_error_nth ts p _ Eg). rewrite (nth_error_nth _ p (x := map gTasks (pGroups pr))) by (rewrite nth_error_map'; now rewrite Epr). exact M.
    + split; auto. intros s ts Es. destruct (FW s ts Es) as (ps & Eps & SI & G). exists ps. split; auto. split; auto. intros p pr Epr. destruct SI as [LP _]. destruct (HT s ts Es) as (LT & _).
      destruct (nth_error_lt ts p) as (gs & Eg); [rewrite LT, <- LP; apply nth_error_Some; congruence|]. destruct (G p gs Eg) as (pr' & Epr' & M). rewrite Epr in Epr'. injection Epr' as <-. rewrite M, (nth_error_nth ts p _ Eg).
      clear. induction gs as [|g gs IH]; constructor; auto. induction g; constructor; auto.
Qed.

Lemma Forall2_trans3 : forall (l1 l2 l3 : list Comp) (P : Comp -> Comp -> Prop), Forall2 (fun c c' => cGrid c' = cGrid c) l1 l2 -> Forall2 P l2 l3 -> (forall c c', P c c' -> cGrid c' = cGrid c) ->
  Forall2 (fun c c' => cGrid c' = cGrid c) l1 l3.
Proof. intros l1 l2 l3 P F. revert l3. induction F as [|x y l l' A F IH]; intros l3 G K; inversion G as [|? z ? l3' B G']; subst; constructor; auto. rewrite (K _ _ B). auto. Qed.
Lemma groups_trans : forall (l1 : list (list Comp)) gs gs' (P : Comp -> Comp -> Prop), Forall2 (Forall2 (fun c c' => cGrid c' = cGrid c)) l1 (map gTasks gs) -> Forall2 (fun g g' => Forall2 P (gTasks g) (gTasks g')) gs gs' ->
  (forall c c', P c c' -> cGrid c' = cGrid c) -> Forall2 (Forall2 (fun c c' => cGrid c' = cGrid c)) l1 (map gTasks gs').
Proof.
  intros l1 gs gs' P F G H. revert l1 F. induction G as [|g g' gs gs' A G IH]; intros l1 F; cbn [map] in *; inversion F; subst; constructor; auto. eapply Forall2_trans3; eauto.
Qed.

Lemma procInv_solve : forall p out pr pr', (p < np)%nat -> solvedProc pr pr' -> procInv dim rest (cnt p) out (E p) pr -> procInv dim rest (cnt p) out (E p) pr'.
Proof.
  intros p out pr pr' Hp [F EX] (A & B & C & D & S & S2 & S3). destruct HF as (_ & _ & _ & HB). destruct (HB p Hp) as (TF & _). unfold procInv. rewrite EX.
  assert (GO : Forall (groupOk dim rest (cnt p)) (pGroups pr')).
  { apply Forall_forall. intros g' Hg'. destruct (Forall2_In_r _ _ _ _ F Hg') as (g & Hg & (X & Y & _)). rewrite Forall_forall in A. destruct (A g Hg) as (T & DD & SO).
    split; [exact (solved_tasksOk dim (tasksOfProcess tasks p) _ _ X T)|]. rewrite Y. split; auto. exact (solved_sizesOk dim rest (tasksOfProcess tasks p) _ _ _ X SO). }
  split; auto. split; [|split; [|split; [|split; [|split]]]]; auto.
  - apply (same_sameSizes (pGroups pr)); auto. now apply solved_same.
  - apply Forall2_length in F. lia.
  - intros g' i Hg' Hi. destruct (Forall2_In_r _ _ _ _ F Hg') as (g & Hg & (_ & Y & _)). rewrite Y. auto.
  - intros g' Hg'. destruct (Forall2_In_r _ _ _ _ F Hg') as (g & Hg & (_ & Y & _)). rewrite Y. auto.
Qed.

Lemma wideInv_solve : forall ws ws', wideInv ws -> Forall2 (Forall2 solvedProc) ws ws' -> wideInv ws'.
Proof.
  intros ws ws' (L & W) F. split; [apply Forall2_length in F; lia|]. intros s ts Es. destruct (W s ts Es) as (ps & Eps & (LP & SI) & G). destruct (Forall2_nth_some _ _ _ F s ps Eps) as (ps' & Eps' & FP).
  assert (LFP : length ps = length ps') by (apply Forall2_length in FP; lia). exists ps'. split; auto. split; [split; [lia|]|].
  - intros p pr' Epr'. assert (Hp : (p < np)%nat) by (rewrite <- LP, LFP; apply nth_error_Some; congruence). destruct (nth_error_lt ps p ltac:(lia)) as (pr & Epr). destruct (Forall2_nth_some _ _ _ FP p pr Epr) as (pr1 & E1 & SP).
    rewrite Epr' in E1. injection E1 as <-. now apply (procInv_solve p _ pr pr' Hp SP), SI.
  - intros p pr' Epr'. assert (Hp : (p < np)%nat) by (rewrite <- LP, LFP; apply nth_error_Some; congruence). destruct (nth_error_lt ps p ltac:(lia)) as (pr & Epr). destruct (Forall2_nth_some _ _ _ FP p pr Epr) as (pr1 & E1 & SP).
    rewrite Epr' in E1. injection E1 as <-. apply (groups_trans _ (pGroups pr) _ solvedTask (G p pr Epr)); [|apply solvedTask_spec]. destruct SP as [SP _]. eapply Forall2_imp2; [|exact SP]. intros g g' (A & _). exact A.
Qed.

Lemma confFits_ok : forall old c, confFits levels np tasks fuel old c -> (forall p, (p < np)%nat -> zsum (E p) < 2 ^ 31) -> confOk np E fuel old (length tasks) c.
Proof. intros old c (A & B & C & D & F & G & H) X. split; auto. split; [split; auto|]. split; auto. Qed.
Lemma shared_lt : forall p, (p < np)%nat -> zsum (E p) < 2 ^ 31.
Proof.
  intros p Hp. destruct HF as (_ & _ & _ & HB). destruct (HB p Hp) as (_ & S & _). assert (X : zsum (E p) <= zsum (map (cnt p) levels)); [|unfold cnt in *; lia]. unfold E, sharedSizes. fold levels. clear S. pose proof (wide_cnt p) as R.
  assert (X : forall ls, zsum (map (fun l => if (2 <=? holdingSystems tasks p l)%nat then cnt p l else 0) ls) <= zsum (map (cnt p) ls)); [|apply X].
  induction ls as [|l ls IH]; [cbn; lia|]. cbn [map]. change (zsum (?a :: ?b)) with (a + zsum b). pose proof (R l). destruct (2 <=? _)%nat; lia.
Qed.

Lemma wideInv_combine : forall ws conf' olds, wideInv ws -> (forall s, (s < length tasks)%nat -> fOut (conf' s) = fOut (conf s) /\ confFits levels np tasks fuel (olds s) (conf' s)) ->
  exists ws', combineWide esz levels conf' fuel olds ws = Some ws' /\ wideInv ws' /\ everyTask (fun p => combinedTask levels (allHeld ws p)) ws ws'.
Proof.
  intros ws conf' olds I HC. pose proof (wideInv_shared ws I) as SH. destruct I as (L & W).
  destruct (combineWide_spec dim rest HL HP np cnt E wide_cnt fuel esz conf' olds ws) as (ws' & EW & LW & FW); auto.
  - intros s ps Es. destruct (nth_error_lt tasks s) as (ts & Ets); [rewrite <- L; apply nth_error_Some; congruence|]. destruct (W s ts Ets) as (ps0 & E0 & SI & _). rewrite Es in E0. injection E0 as <-.
    destruct (HC s) as [EO CF]; [apply nth_error_Some; congruence|]. rewrite EO. split; auto. rewrite L. apply confFits_ok; auto. exact shared_lt.
  - assert (AH : forall p, concat (map (fun ps0 => procTasks ps0 p) ws) = allHeld ws p) by (intros p; unfold allHeld; now rewrite flat_map_concat_map).
    assert (ST : forall s ps, nth_error ws s = Some ps -> exists ps', nth_error ws' s = Some ps' /\ length ps' = length ps /\ sysInv dim rest np cnt E (fOut (conf s)) ps' /\ forall p pr, nth_error ps p = Some pr -> exists pr', nth_error ps' p = Some pr' /\
        Forall2 (fun g g' => Forall2 (combinedTask levels (allHeld ws p)) (gTasks g) (gTasks g')) (pGroups pr) (pGroups pr')).
    { intros s ps Es. destruct (FW s ps Es) as (ps' & Es' & SI & G). destruct (nth_error_lt tasks s) as (ts & Ets); [rewrite <- L; apply nth_error_Some; congruence|]. destruct (W s ts Ets) as (ps0 & E0 & SI0 & _). rewrite Es in E0. injection E0 as <-.
      destruct (HC s) as [EO CF]; [apply nth_error_Some; congruence|]. rewrite EO in SI. exists ps'. split; auto. split; [destruct SI, SI0; congruence|]. split; auto. intros p pr Epr. destruct (G p pr Epr) as (pr' & Epr' & FG). exists pr'. split; auto.
      eapply Forall2_imp2; [|exact FG]. intros g g' (U & _). rewrite AH in U. eapply Forall2_imp2; [|exact U]. intros c c'. apply steppedTask_combined. }
    exists ws'. split; auto. split; [split; [congruence|]|split; auto].
    + intros s ts Ets. destruct (W s ts Ets) as (ps & Es & SI & G). destruct (ST s ps Es) as (ps' & Es' & LP & SI' & G'). exists ps'. split; auto. split; auto. intros p pr' Epr'.
      destruct (nth_error_lt ps p) as (pr & Epr); [rewrite <- LP; apply nth_error_Some; congruence|]. destruct (G' p pr Epr) as (pr1 & E1 & FG). rewrite Epr' in E1. injection E1 as <-.
      apply (groups_trans _ (pGroups pr) _ _ (G p pr Epr) FG). intros c c' (X & _). exact X.
    + intros s ps Es. destruct (ST s ps Es) as (ps' & A & B & _ & D). eauto.
Qed.

Lemma reachableWide_inv : forall ws, reachableWide esz levels np fuel conf tasks ws -> wideInv ws.
Proof.
  intros ws H. induction H as [ws EW|ws ws' H IH F|ws ws' conf' olds H IH HC EW].
  - destruct wide_start as (ws0 & E0 & _ & I). congruence.
  - now apply (wideInv_solve ws).
  - destruct (wideInv_combine ws conf' olds IH HC) as (ws1 & E1 & I & _). congruence.
Qed.

Lemma wide_held_good : forall ws p c, wideInv ws -> In c (allHeld ws p) -> goodComp dim c /\ forall l, containsL c l -> Z.of_nat (length (pointsOf c l)) = cnt p l.
Proof.
  intros ws p c (L & W) Hc. unfold allHeld in Hc. apply in_flat_map in Hc. destruct Hc as (ps & Hps & Hc). apply In_nth_error in Hps. destruct Hps as (s & Es). destruct (nth_error_lt tasks s) as (ts & Ets); [rewrite <- L; apply nth_error_Some; congruence|].
  destruct (W s ts Ets) as (ps0 & E0 & (_ & SI) & _). rewrite Es in E0. injection E0 as <-. unfold tasksHeld in Hc. destruct (nth_error ps p) as [pr|] eqn:Epr; [|destruct Hc]. destruct (SI p pr Epr) as (A & _). apply in_flat_map in Hc. destruct Hc as (g & Hg & Hc).
  rewrite Forall_forall in A. destruct (A g Hg) as ((G & C) & _). rewrite Forall_forall in G. split; auto.
Qed.
End Wide.

(** ** C92 *)

(** Registering the tasks, agreeing on the sizes within every system, exchanging them through files and enlarging the sparse
    grids succeeds, and leaves the tasks as they are. *)
Theorem C92_start : forall esz dim rest np conf tasks, let levels := repeat 1 dim :: rest in
  sortedLevels dim levels -> Forall (Forall (Z.le 1)) levels -> wideFits dim levels np conf tasks ->
  exists ws, startWide esz levels conf tasks = Some ws /\ map (map (fun pr => map gTasks (pGroups pr))) ws = tasks.
Proof. intros esz dim rest np conf tasks levels HL HP HF. destruct (wide_start dim rest HL HP esz np conf tasks HF) as (ws & A & B & _). eauto. Qed.

(** In every state that can be reached, the combination of all systems ends, and gives every task of every system at the points of
    the sparse grid's subspaces the weighted sum over the tasks of all systems. *)
Theorem C92_combination : forall esz dim rest np fuel conf tasks ws conf' olds, let levels := repeat 1 dim :: rest in
  sortedLevels dim levels -> Forall (Forall (Z.le 1)) levels -> wideFits dim levels np conf tasks -> reachableWide esz levels np fuel conf tasks ws ->
  (forall s, (s < length tasks)%nat -> fOut (conf' s) = fOut (conf s) /\ confFits levels np tasks fuel (olds s) (conf' s)) ->
  exists ws', combineWide esz levels conf' fuel olds ws = Some ws' /\ everyTask (fun p => combinedTask levels (allHeld ws p)) ws ws'.
Proof.
  intros esz dim rest np fuel conf tasks ws conf' olds levels HL HP HF HR HC. pose proof (reachableWide_inv dim rest HL HP esz np fuel conf tasks HF ws HR) as I.
  destruct (wideInv_combine dim rest HL HP esz np fuel conf tasks HF ws conf' olds I HC) as (ws' & A & _ & B). eauto.
Qed.

(** One system with the same tasks, whatever their distribution to groups and the variant, gets the same values. *)
Theorem C92_as_one_system : forall esz dim rest np fuel conf tasks ws conf' olds ws' v esz1 tasks1 gs chunk order gs', let levels := repeat 1 dim :: rest in
  sortedLevels dim levels -> Forall (Forall (Z.le 1)) levels -> wideFits dim levels np conf tasks -> reachableWide esz levels np fuel conf tasks ws ->
  (forall s, (s < length tasks)%nat -> fOut (conf' s) = fOut (conf s) /\ confFits levels np tasks fuel (olds s) (conf' s)) ->
  combineWide esz levels conf' fuel olds ws = Some ws' ->
  tasksFit dim tasks1 -> variantFits v levels tasks1 -> reachable v esz1 levels tasks1 gs -> 0 < chunk < 2 ^ 31 -> anyOrder gs order ->
  combineStep v esz1 chunk order levels gs = Some gs' ->
  forall p, Permutation (allHeld ws p) (allTasks gs) ->
  forall c c1 c2, In (c, c1) (combine (allHeld ws p) (allHeld ws' p)) -> In (c, c2) (combine (allTasks gs) (allTasks gs')) -> sameValues c1 c2.
Proof.
  intros esz dim rest np fuel conf tasks ws conf' olds ws' v esz1 tasks1 gs chunk order gs' levels HL HP HF HR HC EW HT HV HR1 HCh HO E1 p PM c c1 c2 H1 H2.
  destruct (C92_combination esz dim rest np fuel conf tasks ws conf' olds HL HP HF HR HC) as (w & EW' & FW). fold levels in EW', FW. rewrite EW in EW'. injection EW' as <-.
  destruct (C31_combination_step v esz1 dim rest tasks1 gs chunk order HL HP HT HV HR1 HCh HO) as (g1 & EG & FG). fold levels in EG, FG. rewrite E1 in EG. injection EG as <-.
  apply (stepped_pairs levels (allTasks gs)) in H2; auto. destruct H2 as [Hc2 H2].
  apply (combined_same dim levels (allHeld ws p) (allTasks gs) c); auto.
  - now apply (reachable_good v esz1 dim rest tasks1 gs HL HP HT HV HR1).
  - intros l j. now apply weightedSum_perm.
  - exact (proj2 (Forall2_combine_In _ _ _ _ _ (everyTask_held _ _ _ p FW) H1)).
Qed.

(** Values on which all systems agree stay as they are, if the coefficients of all systems together add up to one on every subspace. *)
Theorem C92_projection : forall esz dim rest np fuel conf tasks ws conf' olds, let levels := repeat 1 dim :: rest in
  sortedLevels dim levels -> Forall (Forall (Z.le 1)) levels -> wideFits dim levels np conf tasks -> reachableWide esz levels np fuel conf tasks ws ->
  (forall s, (s < length tasks)%nat -> fOut (conf' s) = fOut (conf s) /\ confFits levels np tasks fuel (olds s) (conf' s)) ->
  (forall p, consistent levels (allHeld ws p) /\ unity levels (allHeld ws p)) ->
  exists ws', combineWide esz levels conf' fuel olds ws = Some ws' /\ everyTask (fun _ => sameValues) ws ws'.
Proof.
  intros esz dim rest np fuel conf tasks ws conf' olds levels HL HP HF HR HC CU. pose proof (reachableWide_inv dim rest HL HP esz np fuel conf tasks HF ws HR) as I.
  destruct (C92_combination esz dim rest np fuel conf tasks ws conf' olds HL HP HF HR HC) as (ws' & EW & (L & F)). fold levels in EW, F. exists ws'. split; auto.
  assert (K : forall p c c', In c (allHeld ws p) -> combinedTask levels (allHeld ws p) c c' -> sameValues c c').
  { intros p c c' Hc (EG & _ & _ & V). split; auto. intros k Hk. assert (G : forall x, In x (allHeld ws p) -> goodComp dim x) by (intros x Hx; apply (wide_held_good dim rest np conf tasks ws p x I Hx)).
    destruct (points_cover dim c k (G c Hc) Hk) as (l & j & Hl & Hj & <-). destruct (V l j Hl Hj) as [A B]. destruct (CU p) as [CO UN].
    destruct (in_dec (list_eq_dec Z.eq_dec) l levels) as [Y|Y]; [|auto]. rewrite A by auto. apply (weightedSum_consistent dim levels); auto. apply Forall_forall. exact G. }
  split; auto. intros s ps Es. destruct (F s ps Es) as (ps' & Es' & LP & G). exists ps'. split; auto. split; auto. intros p pr Epr. destruct (G p pr Epr) as (pr' & Epr' & FG). exists pr'. split; auto.
  apply (nested_imp (combinedTask levels (allHeld ws p))); auto. intros c c' Hc. apply K. unfold allHeld. apply in_flat_map. exists ps. split; [now apply nth_error_In in Es|]. unfold tasksHeld. now rewrite Epr.
Qed.

(** After any combination the tasks of all systems have the same values at common points. *)
Theorem C92_consistent : forall esz dim rest np fuel conf tasks ws conf' olds ws', let levels := repeat 1 dim :: rest in
  sortedLevels dim levels -> Forall (Forall (Z.le 1)) levels -> wideFits dim levels np conf tasks -> reachableWide esz levels np fuel conf tasks ws ->
  (forall s, (s < length tasks)%nat -> fOut (conf' s) = fOut (conf s) /\ confFits levels np tasks fuel (olds s) (conf' s)) ->
  combineWide esz levels conf' fuel olds ws = Some ws' -> forall p, consistent levels (allHeld ws' p).
Proof.
  intros esz dim rest np fuel conf tasks ws conf' olds ws' levels HL HP HF HR HC EW p. pose proof (reachableWide_inv dim rest HL HP esz np fuel conf tasks HF ws HR) as I.
  destruct (C92_combination esz dim rest np fuel conf tasks ws conf' olds HL HP HF HR HC) as (w & EW' & FW). fold levels in EW', FW. rewrite EW in EW'. injection EW' as <-.
  apply (combined_consistent levels (allHeld ws p)); [exact (everyTask_held _ _ _ p FW)|]. intros c c' l Hc Hc' Hl Hl'.
  destruct (wide_held_good dim rest np conf tasks ws p c I Hc) as [_ A], (wide_held_good dim rest np conf tasks ws p c' I Hc') as [_ A']. apply Nat2Z.inj. rewrite A, A'; auto.
Qed.

(** ** Examples *)
From Verif Require Import DecompModel SystemModel SystemProofs SystemProps.

(** Two systems with two groups of two processes each. The grids are those of the classical scheme from (1,1) to (2,2); the first
    system has two of them. Only level (1,1) is common to both systems. *)
Definition exW (r : Z) : list (list (list Comp)) :=
  map (map (map (localTask exSetup r)))
    [[[exTask exSetup [2; 1] (toQc 1) (exNum 1)]; [exTask exSetup [1; 1] (toQc (-1)) (exNum 2)]]; [[]; [exTask exSetup [1; 2] (toQc 1) (exNum 5)]]].
Definition exWide : list (list (list (list Comp))) := map (fun s => map (fun r => nth s (exW r) []) [0; 1]) [0; 1]%nat.
Definition exConf (s : nat) : Conf :=
  match s with
  | O => {| fOut := 1; fChunk := 4; fBuffer := 8; fOrder := [1; 0]%nat; fQuery := fun t _ => Nat.leb 3 t |}
  | _ => {| fOut := 0; fChunk := 100; fBuffer := 6; fOrder := [0; 1]%nat; fQuery := fun _ _ => true |}
  end.
Definition exOld (s : nat) : option (list Qc) := match s with O => Some [1%Qc; 0%Qc] | _ => None end.

Lemma exW_fit : forall r, r = 0 \/ r = 1 -> tasksFit 2 (concat (exW r)).
Proof.
  intros r Hr. pose proof (exSys_wf VSparseGrid (exNum 1) (exNum 2) (exNum 5) (toQc 1) (toQc (-1)) (toQc 1)) as (HY & HT & _).
  apply (local_tasksFit exSetup [[exTask exSetup [2; 1] (toQc 1) (exNum 1)]; [exTask exSetup [1; 1] (toQc (-1)) (exNum 2)]; []; [exTask exSetup [1; 2] (toQc 1) (exNum 5)]] r HY); [|exact HT].
  change (zprod (yProcs exSetup)) with 2. lia.
Qed.
Example C92_ex_hyps : wideFits 2 (yLevels exSetup) 2 exConf exWide /\ forall s, (s < length exWide)%nat -> fOut (exConf s) = fOut (exConf s) /\ confFits (yLevels exSetup) 2 exWide 10 (exOld s) (exConf s).
Proof.
  assert (HP : forall p, (p < 2)%nat -> tasksOfProcess exWide p = concat (exW (Z.of_nat p))) by (intros [|[|p]] Hp; try lia; reflexivity).
  split.
  - split; [left; reflexivity|]. split; [vm_compute; reflexivity|]. split.
    + intros s ts Es. assert (s < 2)%nat by (apply (nth_error_Some exWide s); congruence). assert (s = 0 \/ s = 1)%nat as [-> | ->] by lia; cbn in Es; injection Es as <-; (split; [reflexivity|]).
      * split; [apply perm_swap|]. intros [|[|[|p]]] gs Eg; cbn in Eg; try discriminate; injection Eg as <-; cbn; lia.
      * split; [apply Permutation_refl|]. intros [|[|[|p]]] gs Eg; cbn in Eg; try discriminate; injection Eg as <-; cbn; lia.
    + intros p Hp. split; [rewrite HP by auto; apply exW_fit; lia|]. assert (p = 0 \/ p = 1)%nat as [-> | ->] by lia; (split; [vm_compute; reflexivity|]); intros l [<-|[<-|[<-|[]]]]; vm_compute; reflexivity.
  - intros s Hs. split; auto. assert (SP : forall p, (p < 2)%nat -> sharedPoints (yLevels exSetup) exWide p = if Nat.eqb p 0 then 3 else 6) by (intros [|[|p]] Hp; try lia; vm_compute; reflexivity).
    assert (NR : forall b p, (b = 6 \/ b = 8)%nat -> (p < 2)%nat -> numReads (Z.to_nat (sharedPoints (yLevels exSetup) exWide p)) b = 1%nat).
    { intros b p [-> | ->] Hp; rewrite SP by auto; assert (p = 0 \/ p = 1)%nat as [-> | ->] by lia; reflexivity. }
    assert (CS : length (concat (map (fun p => repeat 0%Z (Z.to_nat (sharedPoints (yLevels exSetup) exWide p))) (seq 0 2))) = 9%nat) by (cbn [seq map]; rewrite !SP by lia; reflexivity).
    unfold confFits. rewrite CS. assert (s = 0 \/ s = 1)%nat as [-> | ->] by (cbn in Hs; lia); cbn [exConf fChunk fBuffer fOrder fQuery exOld].
    + split; [lia|]. split; [lia|]. split; [intros p Hp; rewrite NR by auto; lia|]. split; [intros p p' Hp Hp'; now rewrite !NR by auto|]. split; [apply perm_swap|]. split; [cbn; lia|].
      exists 3%nat. split; [intros t i Ht _; now apply Nat.leb_le|cbn; lia].
    + split; [lia|]. split; [lia|]. split; [intros p Hp; rewrite NR by auto; lia|]. split; [intros p p' Hp Hp'; now rewrite !NR by auto|]. split; [apply Permutation_refl|]. split; [cbn; lia|].
      exists 0%nat. split; [reflexivity|cbn; lia].
Qed.
Definition exShow (ws : list (list Proc)) : list (list (list (list (list Q)))) :=
  map (map (fun pr => map (fun g => map (fun c => map (fun k => this (cValues c k)) (zrange 0 (zprod (gSizes (cGrid c))))) (gTasks g)) (pGroups pr))) ws.
Definition exWideTwice : option (list (list (list (list (list Q)))) * list (list (list (list (list Q))))) :=
  match startWide 8 (yLevels exSetup) exConf exWide with
  | None => None
  | Some ws => match combineWide 8 (yLevels exSetup) exConf 10 exOld ws with
               | None => None
               | Some ws1 => match combineWide 8 (yLevels exSetup) exConf 10 (fun _ => Some (repeat (toQc 7) 9)) ws1 with
                             | None => None
                             | Some ws2 => Some (exShow ws1, exShow ws2)
                             end
               end
  end.
Definition exCombined : list (list (list (list (list Q)))) :=
  [[[[[4; 4; 4; -3; 4; -10]]; [[4; 4; 4]]]; [[[16; 28; 52; -5; 7; 10; -26; -14; -32]]; [[16; 52; -5; 10; -26; -32]]]];
   [[[]; [[4; 5; 4; 5; 4]]]; [[]; [[16; 52; 1; 3; -5; 10; -13; -25; -26; -32]]]]]%Q.
(** The second combination, right after the first one, changes nothing; one system with all groups gets the same values. *)
Example C92_ex : exWideTwice = Some (exCombined, exCombined).
Proof. vm_compute. reflexivity. Qed.
Example C92_ex_one :
  map (fun r => match initGroups VSubspace 8 (yLevels exSetup) (concat (exW r)) with
                | None => None
                | Some gs => option_map (map (fun g => map (fun c => map (fun k => this (cValues c k)) (zrange 0 (zprod (gSizes (cGrid c))))) (gTasks g)))
                               (combineStep VSubspace 8 3 [[0; 1; 3]%nat] (yLevels exSetup) gs)
                end) [0; 1]
  = map (fun p => Some (concat (map (fun ps => nth p ps []) exCombined))) [0; 1]%nat.
Proof. vm_compute. reflexivity. Qed.

Print Assumptions C92_start.
Print Assumptions C92_combination.
Print Assumptions C92_as_one_system.
Print Assumptions C92_projection.
Print Assumptions C92_consistent.
