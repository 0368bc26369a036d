(** Property C106: the combination of several systems through files in chunks. *)
From Verif Require Import Base TensorModel Level1dModel LevelSetsModel LevelSetsProofs SubspaceModel CombiSchemeModel Hier1dModel Hier1dProofs HierMassProofs
  DofProofs SparseGridModel SparseGridProofs CombineModel SparseTransferProofs SparseGridProps ReduceModel ReduceProofs VoteProofs SubspaceReduceProofs
  CombiStepModel CombiStepProofs CombiInitProofs CombiStepProps FileModel FileProps ExchangeModel ExchangeProps WideModel WideProofs WideStepProofs WideInitProofs WideProps
  WideChunkedModel WideChunkedProofs WideChunkedStepProofs WideChunkedInitProofs.
From Coq Require Import QArith Qcanon Permutation.
Open Scope Z_scope.
Ltac Zify.zify_post_hook ::= idtac.

(** As for C92; a system has at most 256 groups (the bits of AnyDistributedSparseGrid.cpp:90-152), and every process has points of a
    subspace that two systems have. *)
Definition chunkedFits (dim : nat) (levels : list (list Z)) (np : nat) (conf : nat -> Conf) (tasks : list (list (list (list Comp)))) : Prop :=
  wideFits dim levels np conf tasks /\
  (forall s ts p gs, nth_error tasks s = Some ts -> nth_error ts p = Some gs -> (length gs <= 256)%nat) /\
  forall p, (p < np)%nat -> 0 < sharedPoints levels tasks p.

(** The states of all systems that can be reached by computing and combining. *)
Inductive reachableChunked (esz : Z) (levels : list (list Z)) (np fuel : nat) (conf : nat -> Conf) (tasks : list (list (list (list Comp)))) : list (list Proc) -> Prop :=
| chunked_init : forall ws, startChunked esz levels conf tasks = Some ws -> reachableChunked esz levels np fuel conf tasks ws
| chunked_solve : forall ws ws', reachableChunked esz levels np fuel conf tasks ws -> Forall2 (Forall2 solvedProc) ws ws' -> reachableChunked esz levels np fuel conf tasks ws'
| chunked_combine : forall ws ws' conf' olds, reachableChunked esz levels np fuel conf tasks ws ->
    (forall s, (s < length tasks)%nat -> fOut (conf' s) = fOut (conf s) /\ confFits levels np tasks fuel (olds s) (conf' s)) ->
    combineChunked esz levels conf' fuel olds ws = Some ws' -> reachableChunked esz levels np fuel conf tasks ws'.

Section Chunked.
Variables (dim : nat) (rest : list (list Z)).
Let levels := repeat 1 dim :: rest.
Hypothesis HL : sortedLevels dim levels.
Hypothesis HP : Forall (Forall (Z.le 1)) levels.
Variables (esz : Z) (np fuel : nat) (conf : nat -> Conf) (tasks : list (list (list (list Comp)))).
Hypothesis HFC : chunkedFits dim levels np conf tasks.
Let HF : wideFits dim levels np conf tasks := proj1 HFC.
Let cnt := pointsAt tasks.
Let E := sharedSizes dim rest cnt tasks.

Lemma shared_E : forall p, zsum (E p) = sharedPoints levels tasks p.
Proof. reflexivity. Qed.
Lemma wide_good : forall p s ts, nth_error tasks s = Some ts -> (p < np)%nat -> Forall (tasksOk dim (cnt p)) (nth p ts []).
Proof.
  intros p s ts Es Hp. destruct HF as (_ & _ & _ & HT). destruct (HT p Hp) as (T & _). pose proof (tasks_ok dim (tasksOfProcess tasks p) T) as TO. rewrite Forall_forall in TO. apply Forall_forall. intros cs Hcs. apply TO.
  unfold tasksOfProcess. apply in_concat. exists (nth p ts []). split; auto. apply in_map_iff. exists ts. split; auto. now apply nth_error_In in Es.
Qed.
Lemma wide_cnt : forall p q, 0 <= cnt p q < 2 ^ 32.
Proof.
  intros p q. destruct (Nat.lt_ge_cases p np) as [H|H].
  - destruct HF as (_ & _ & _ & HT). destruct (HT p H) as ((_ & _ & T) & _). now apply cntOf_range.
  - unfold cnt, pointsAt. assert (N : tasksOfProcess tasks p = []); [|rewrite N; cbn; lia]. unfold tasksOfProcess. destruct HF as (_ & _ & HS & _).
    assert (X : forall ts, In ts tasks -> nth p ts [] = []). { intros ts Hts. apply In_nth_error in Hts. destruct Hts as (s & Es). destruct (HS s ts Es) as (L & _). apply nth_overflow. lia. }
    clear - X. induction tasks as [|t l IH]; auto. cbn [map concat]. rewrite (X t) by now left. rewrite IH; auto. intros ts Hts. apply X. now right.
Qed.

Definition chunkedInv (ws : list (list Proc)) : Prop := length ws = length tasks /\ forall s ts, nth_error tasks s = Some ts ->
  exists ps, nth_error ws s = Some ps /\ cInv dim rest np cnt E (fOut (conf s)) ps /\
    forall p pr, nth_error ps p = Some pr -> Forall2 (Forall2 (fun c c' => cGrid c' = cGrid c)) (nth p ts []) (map gTasks (pGroups pr)).

Lemma chunkedInv_shared : forall ws, chunkedInv ws -> sharedOk dim rest np cnt E ws.
Proof.
  intros ws (L & W) s s' ps ps' p i c c' Es Es' Hp Hi Hc Hc' Hl Hl' N HC.
  assert (HELD : forall s ps c, nth_error ws s = Some ps -> In c (procTasks ps p) -> containsL c (nth (Z.to_nat i) levels []) -> exists ts, nth_error tasks s = Some ts /\ heldIn (nth (Z.to_nat i) levels []) (concat (nth p ts [])) = true).
  { clear s s' ps ps' c c' Es Es' Hc Hc' Hl Hl' N. intros s ps c Es Hc Hl. destruct (nth_error_lt tasks s) as (ts & Ets); [rewrite <- L; apply nth_error_Some; congruence|]. exists ts. split; auto.
    destruct (W s ts Ets) as (ps0 & E0 & _ & G). rewrite Es in E0. injection E0 as <-. unfold procTasks in Hc. destruct (nth_error ps p) as [pr|] eqn:Epr; [|destruct Hc]. specialize (G p pr Epr).
    unfold allTasks in Hc. apply in_flat_map in Hc. destruct Hc as (g & Hg & Hc). destruct (Forall2_In_r _ _ _ (gTasks g) G) as (cs & Hcs & F); [now apply in_map|]. destruct (Forall2_In_r _ _ _ c F Hc) as (c0 & Hc0 & EG).
    unfold heldIn. apply existsb_exists. exists c0. split; [apply in_concat; eauto|]. pose proof (wide_good p s ts Ets Hp) as T. rewrite Forall_forall in T. destruct (T cs Hcs) as [GC _]. rewrite Forall_forall in GC.
    apply (lvl_contains dim rest HL HP c0 i); auto. unfold containsL in *. now rewrite <- EG. }
  destruct (HELD s ps c Es Hc Hl) as (ts & Ets & H). destruct (HELD s' ps' c' Es' Hc' Hl') as (ts' & Ets' & H').
  pose proof (two_in_filter (fun ts => heldIn (nth (Z.to_nat i) levels []) (concat (nth p ts []))) tasks s s' ts ts' Ets Ets' N H H') as TW.
  unfold E, sharedSizes. rewrite (mapLv (fun l => if (2 <=? holdingSystems tasks p l)%nat then cnt p l else 0) (repeat 1 dim :: rest) i Hi). unfold holdingSystems. fold levels.
  destruct (Nat.leb_spec 2 (length (filter (fun ts => heldIn (nth (Z.to_nat i) levels []) (concat (nth p ts []))) tasks))); [|lia]. change (nth (Z.to_nat i) (repeat 1 dim :: rest) []) with (nth (Z.to_nat i) levels []) in HC. lia.
Qed.

Lemma wide_start : exists ws, startChunked esz levels conf tasks = Some ws /\ map (map (fun pr => map gTasks (pGroups pr))) ws = tasks /\ chunkedInv ws.
Proof.
  destruct HF as (HS & HN & HT & HB). destruct (startChunked_spec dim rest HL HP HN np cnt wide_cnt esz conf tasks HS) as (ws & EW & LW & FW).
  - intros p Hp. apply HB; auto.
  - intros p l Hp Hl. destruct (HB p Hp) as (_ & _ & X). auto.
  - intros s ts Es. destruct (HT s ts Es) as (A & B & C). split; auto. split; auto. intros p gs Eg. assert (Hp : (p < np)%nat) by (rewrite <- A; apply nth_error_Some; congruence). split; [|split; [eauto|exact (proj1 (proj2 HFC) s ts p gs Es Eg)]].
    pose proof (wide_good p s ts Es Hp) as X. rewrite (nth_error_nth ts p [] Eg) in X. exact X.
  - exact (proj2 (proj2 HFC)).
  - exists ws. split; auto. split.
    + apply nth_ext with (d := []) (d' := []); [now rewrite map_length|]. intros s Hs. rewrite map_length in Hs. destruct (nth_error_lt tasks s ltac:(lia)) as (ts & Es). destruct (FW s ts Es) as (ps & Eps & (LP & _) & G). destruct (HT s ts Es) as (LT & _).
      rewrite (nth_error_nth tasks s _ Es). rewrite (nth_error_nth _ s (x := map (fun pr => map gTasks (pGroups pr)) ps)) by (rewrite nth_error_map'; now rewrite Eps).
      apply nth_ext with (d := []) (d' := []); [rewrite map_length; lia|]. intros p Hp. rewrite map_length in Hp. destruct (nth_error_lt ts p ltac:(lia)) as (gs & Eg). destruct (G p gs Eg) as (pr & Epr & M).
      rewrite (nth_error_nth ts p _ Eg). rewrite (nth_error_nth _ p (x := map gTasks (pGroups pr))) by (rewrite nth_error_map'; now rewrite Epr). exact M.
    + split; auto. intros s ts Es. destruct (FW s ts Es) as (ps & Eps & SI & G). exists ps. split; auto. split; auto. intros p pr Epr. destruct SI as [LP _]. destruct (HT s ts Es) as (LT & _).
      destruct (nth_error_lt ts p) as (gs & Eg); [rewrite LT, <- LP; apply nth_error_Some; congruence|]. destruct (G p gs Eg) as (pr' & Epr' & M). rewrite Epr in Epr'. injection Epr' as <-. rewrite M, (nth_error_nth ts p _ Eg).
      clear. induction gs as [|g gs IH]; constructor; auto. induction g; constructor; auto.
Qed.

Lemma chunkInv_solve : forall p out is pr pr', (p < np)%nat -> solvedProc pr pr' -> chunkInv dim rest (cnt p) (E p) out is pr -> chunkInv dim rest (cnt p) (E p) out is pr'.
Proof.
  intros p out is pr pr' Hp [F EX] (A & B & (go & Ego & EF) & AL & FE & PE). unfold chunkInv. rewrite EX. pose proof (solved_same _ _ F) as SM. destruct HF as (_ & _ & _ & HB). destruct (HB p Hp) as (TF & _).
  split; [|split; [|split; [|split; [|split; auto]]]].
  - apply Forall_forall. intros g' Hg'. destruct (Forall2_In_r _ _ _ _ F Hg') as (g & Hg & (X & Y & _)). rewrite Forall_forall in A. destruct (A g Hg) as (T & I & K & SO & SZ). unfold chunkGroupOk. rewrite Y.
    split; [exact (solved_tasksOk dim (tasksOfProcess tasks p) _ _ X T)|]. split; auto. split; auto. split; auto. exact (solved_sizesOk dim rest (tasksOfProcess tasks p) _ _ _ X SO).
  - exact (same_chunkedOk dim rest (tasksOfProcess tasks p) _ _ SM is B).
  - destruct (Forall2_nth_error _ _ _ _ _ SM Ego) as (go' & Ego' & (_ & S & _)). exists go'. split; auto. apply (extraFits_sizes dim rest (cnt p) (E p) go go'); auto.
  - intros i r c' Hi NI P N Hc' Hl. destruct (same_tasks _ _ SM r c' Hc') as (c & Hc & G). apply (AL i r c); auto. unfold containsL in *. now rewrite G in Hl.
Qed.

Lemma chunkedInv_solve : forall ws ws', chunkedInv ws -> Forall2 (Forall2 solvedProc) ws ws' -> chunkedInv ws'.
Proof.
  intros ws ws' (L & W) F. split; [apply Forall2_length in F; lia|]. intros s ts Es. destruct (W s ts Es) as (ps & Eps & (LP & SI) & G). destruct (Forall2_nth_some _ _ _ F s ps Eps) as (ps' & Eps' & FP).
  assert (LFP : length ps = length ps') by (apply Forall2_length in FP; lia). exists ps'. split; auto. split; [split; [lia|]|].
  - intros p pr' Epr'. assert (Hp : (p < np)%nat) by (rewrite <- LP, LFP; apply nth_error_Some; congruence). destruct (nth_error_lt ps p ltac:(lia)) as (pr & Epr). destruct (Forall2_nth_some _ _ _ FP p pr Epr) as (pr1 & E1 & SP).
    rewrite Epr' in E1. injection E1 as <-. destruct (SI p pr Epr) as (is & CI). exists is. exact (chunkInv_solve p _ is pr pr' Hp SP CI).
  - intros p pr' Epr'. assert (Hp : (p < np)%nat) by (rewrite <- LP, LFP; apply nth_error_Some; congruence). destruct (nth_error_lt ps p ltac:(lia)) as (pr & Epr). destruct (Forall2_nth_some _ _ _ FP p pr Epr) as (pr1 & E1 & SP).
    rewrite Epr' in E1. injection E1 as <-. apply (groups_trans _ (pGroups pr) _ solvedTask (G p pr Epr)); [|apply solvedTask_spec]. destruct SP as [SP _]. eapply Forall2_imp2; [|exact SP]. intros g g' (A & _). exact A.
Qed.

Lemma confFits_ok : forall old c, confFits levels np tasks fuel old c -> (forall p, (p < np)%nat -> zsum (E p) < 2 ^ 31) -> confOk np E fuel old (length tasks) c.
Proof. intros old c (A & B & C & D & F & G & H) X. split; auto. split; [split; auto|]. split; auto. Qed.
Lemma shared_lt : forall p, (p < np)%nat -> zsum (E p) < 2 ^ 31.
Proof.
  intros p Hp. destruct HF as (_ & _ & _ & HB). destruct (HB p Hp) as (_ & S & _). assert (X : zsum (E p) <= zsum (map (cnt p) levels)); [|unfold cnt in *; lia]. unfold E, sharedSizes. fold levels. clear S. pose proof (wide_cnt p) as R.
  assert (X : forall ls, zsum (map (fun l => if (2 <=? holdingSystems tasks p l)%nat then cnt p l else 0) ls) <= zsum (map (cnt p) ls)); [|apply X].
  induction ls as [|l ls IH]; [cbn; lia|]. cbn [map]. change (zsum (?a :: ?b)) with (a + zsum b). pose proof (R l). destruct (2 <=? _)%nat; lia.
Qed.

Lemma chunkedInv_combine : forall ws conf' olds, chunkedInv ws -> (forall s, (s < length tasks)%nat -> fOut (conf' s) = fOut (conf s) /\ confFits levels np tasks fuel (olds s) (conf' s)) ->
  exists ws', combineChunked esz levels conf' fuel olds ws = Some ws' /\ chunkedInv ws' /\ everyTask (fun p => combinedTask levels (allHeld ws p)) ws ws'.
Proof.
  intros ws conf' olds I HC. pose proof (chunkedInv_shared ws I) as SH. destruct I as (L & W).
  destruct (combineChunked_spec dim rest HL HP np cnt E wide_cnt fuel esz conf' olds ws) as (ws' & EW & LW & FW); auto.
  - intros s ps Es. destruct (nth_error_lt tasks s) as (ts & Ets); [rewrite <- L; apply nth_error_Some; congruence|]. destruct (W s ts Ets) as (ps0 & E0 & SI & _). rewrite Es in E0. injection E0 as <-.
    destruct (HC s) as [EO CF]; [apply nth_error_Some; congruence|]. rewrite EO. split; auto. rewrite L. apply confFits_ok; auto. exact shared_lt.
  - assert (AH : forall p, concat (map (fun ps0 => procTasks ps0 p) ws) = allHeld ws p) by (intros p; unfold allHeld; now rewrite flat_map_concat_map).
    assert (ST : forall s ps, nth_error ws s = Some ps -> exists ps', nth_error ws' s = Some ps' /\ length ps' = length ps /\ cInv dim rest np cnt E (fOut (conf s)) ps' /\ forall p pr, nth_error ps p = Some pr -> exists pr', nth_error ps' p = Some pr' /\
        Forall2 (fun g g' => Forall2 (combinedTask levels (allHeld ws p)) (gTasks g) (gTasks g')) (pGroups pr) (pGroups pr')).
    { intros s ps Es. destruct (FW s ps Es) as (ps' & Es' & SI & G). destruct (nth_error_lt tasks s) as (ts & Ets); [rewrite <- L; apply nth_error_Some; congruence|]. destruct (W s ts Ets) as (ps0 & E0 & SI0 & _). rewrite Es in E0. injection E0 as <-.
      destruct (HC s) as [EO CF]; [apply nth_error_Some; congruence|]. rewrite EO in SI. exists ps'. split; auto. split; [destruct SI, SI0; congruence|]. split; auto. intros p pr Epr. destruct (G p pr Epr) as (pr' & Epr' & FG). exists pr'. split; auto.
      eapply Forall2_imp2; [|exact FG]. intros g g' (U & _). rewrite AH in U. eapply Forall2_imp2; [|exact U]. intros c c'. apply steppedTask_combined. }
    exists ws'. split; auto. split; [split; [congruence|]|split; auto].
    + intros s ts Ets. destruct (W s ts Ets) as (ps & Es & SI & G). destruct (ST s ps Es) as (ps' & Es' & LP & SI' & G'). exists ps'. split; auto. split; auto. intros p pr' Epr'.
      destruct (nth_error_lt ps p) as (pr & Epr); [rewrite <- LP; apply nth_error_Some; congruence|]. destruct (G' p pr Epr) as (pr1 & E1 & FG). rewrite Epr' in E1. injection E1 as <-.
      apply (groups_trans _ (pGroups pr) _ _ (G p pr Epr) FG). intros c c' (X & _). exact X.
    + intros s ps Es. destruct (ST s ps Es) as (ps' & A & B & _ & D). eauto.
Qed.

Lemma reachableChunked_inv : forall ws, reachableChunked esz levels np fuel conf tasks ws -> chunkedInv ws.
Proof.
  intros ws H. induction H as [ws EW|ws ws' H IH F|ws ws' conf' olds H IH HC EW].
  - destruct wide_start as (ws0 & E0 & _ & I). congruence.
  - now apply (chunkedInv_solve ws).
  - destruct (chunkedInv_combine ws conf' olds IH HC) as (ws1 & E1 & I & _). congruence.
Qed.

Lemma wide_held_good : forall ws p c, chunkedInv ws -> In c (allHeld ws p) -> goodComp dim c /\ forall l, containsL c l -> Z.of_nat (length (pointsOf c l)) = cnt p l.
Proof.
  intros ws p c (L & W) Hc. unfold allHeld in Hc. apply in_flat_map in Hc. destruct Hc as (ps & Hps & Hc). apply In_nth_error in Hps. destruct Hps as (s & Es). destruct (nth_error_lt tasks s) as (ts & Ets); [rewrite <- L; apply nth_error_Some; congruence|].
  destruct (W s ts Ets) as (ps0 & E0 & (_ & SI) & _). rewrite Es in E0. injection E0 as <-. unfold tasksHeld in Hc. destruct (nth_error ps p) as [pr|] eqn:Epr; [|destruct Hc]. destruct (SI p pr Epr) as (is & A & _). apply in_flat_map in Hc. destruct Hc as (g & Hg & Hc).
  rewrite Forall_forall in A. destruct (A g Hg) as ((G & C) & _). rewrite Forall_forall in G. split; auto.
Qed.
End Chunked.

(** ** C106 *)

(** Registering the tasks, agreeing on the sizes within every system, exchanging them through files and enlarging the sparse
    grids succeeds, and leaves the tasks as they are. *)
Theorem C106_start : forall esz dim rest np conf tasks, let levels := repeat 1 dim :: rest in
  sortedLevels dim levels -> Forall (Forall (Z.le 1)) levels -> chunkedFits dim levels np conf tasks ->
  exists ws, startChunked esz levels conf tasks = Some ws /\ map (map (fun pr => map gTasks (pGroups pr))) ws = tasks.
Proof. intros esz dim rest np conf tasks levels HL HP HF. destruct (wide_start dim rest HL HP esz np conf tasks HF) as (ws & A & B & _). eauto. Qed.

(** In every state that can be reached, the combination of all systems ends, and gives every task of every system at the points of
    the sparse grid's subspaces the weighted sum over the tasks of all systems. *)
Theorem C106_combination : forall esz dim rest np fuel conf tasks ws conf' olds, let levels := repeat 1 dim :: rest in
  sortedLevels dim levels -> Forall (Forall (Z.le 1)) levels -> chunkedFits dim levels np conf tasks -> reachableChunked esz levels np fuel conf tasks ws ->
  (forall s, (s < length tasks)%nat -> fOut (conf' s) = fOut (conf s) /\ confFits levels np tasks fuel (olds s) (conf' s)) ->
  exists ws', combineChunked esz levels conf' fuel olds ws = Some ws' /\ everyTask (fun p => combinedTask levels (allHeld ws p)) ws ws'.
Proof.
  intros esz dim rest np fuel conf tasks ws conf' olds levels HL HP HF HR HC. pose proof (reachableChunked_inv dim rest HL HP esz np fuel conf tasks HF ws HR) as I.
  destruct (chunkedInv_combine dim rest HL HP esz np fuel conf tasks HF ws conf' olds I HC) as (ws' & A & _ & B). eauto.
Qed.

(** One system with the same tasks, whatever their distribution to groups and the variant, gets the same values. *)
Theorem C106_as_one_system : forall esz dim rest np fuel conf tasks ws conf' olds ws' v esz1 tasks1 gs chunk order gs', let levels := repeat 1 dim :: rest in
  sortedLevels dim levels -> Forall (Forall (Z.le 1)) levels -> chunkedFits dim levels np conf tasks -> reachableChunked esz levels np fuel conf tasks ws ->
  (forall s, (s < length tasks)%nat -> fOut (conf' s) = fOut (conf s) /\ confFits levels np tasks fuel (olds s) (conf' s)) ->
  combineChunked esz levels conf' fuel olds ws = Some ws' ->
  tasksFit dim tasks1 -> variantFits v levels tasks1 -> reachable v esz1 levels tasks1 gs -> 0 < chunk < 2 ^ 31 -> anyOrder gs order ->
  combineStep v esz1 chunk order levels gs = Some gs' ->
  forall p, Permutation (allHeld ws p) (allTasks gs) ->
  forall c c1 c2, In (c, c1) (combine (allHeld ws p) (allHeld ws' p)) -> In (c, c2) (combine (allTasks gs) (allTasks gs')) -> sameValues c1 c2.
Proof.
  intros esz dim rest np fuel conf tasks ws conf' olds ws' v esz1 tasks1 gs chunk order gs' levels HL HP HF HR HC EW HT HV HR1 HCh HO E1 p PM c c1 c2 H1 H2.
  destruct (C106_combination esz dim rest np fuel conf tasks ws conf' olds HL HP HF HR HC) as (w & EW' & FW). fold levels in EW', FW. rewrite EW in EW'. injection EW' as <-.
  destruct (C31_combination_step v esz1 dim rest tasks1 gs chunk order HL HP HT HV HR1 HCh HO) as (g1 & EG & FG). fold levels in EG, FG. rewrite E1 in EG. injection EG as <-.
  apply (stepped_pairs levels (allTasks gs)) in H2; auto. destruct H2 as [Hc2 H2].
  apply (combined_same dim levels (allHeld ws p) (allTasks gs) c); auto.
  - now apply (reachable_good v esz1 dim rest tasks1 gs HL HP HT HV HR1).
  - intros l j. now apply weightedSum_perm.
  - exact (proj2 (Forall2_combine_In _ _ _ _ _ (everyTask_held _ _ _ p FW) H1)).
Qed.

(** Values on which all systems agree stay as they are, if the coefficients of all systems together add up to one on every subspace. *)
Theorem C106_projection : forall esz dim rest np fuel conf tasks ws conf' olds, let levels := repeat 1 dim :: rest in
  sortedLevels dim levels -> Forall (Forall (Z.le 1)) levels -> chunkedFits dim levels np conf tasks -> reachableChunked esz levels np fuel conf tasks ws ->
  (forall s, (s < length tasks)%nat -> fOut (conf' s) = fOut (conf s) /\ confFits levels np tasks fuel (olds s) (conf' s)) ->
  (forall p, consistent levels (allHeld ws p) /\ unity levels (allHeld ws p)) ->
  exists ws', combineChunked esz levels conf' fuel olds ws = Some ws' /\ everyTask (fun _ => sameValues) ws ws'.
Proof.
  intros esz dim rest np fuel conf tasks ws conf' olds levels HL HP HF HR HC CU. pose proof (reachableChunked_inv dim rest HL HP esz np fuel conf tasks HF ws HR) as I.
  destruct (C106_combination esz dim rest np fuel conf tasks ws conf' olds HL HP HF HR HC) as (ws' & EW & (L & F)). fold levels in EW, F. exists ws'. split; auto.
  assert (K : forall p c c', In c (allHeld ws p) -> combinedTask levels (allHeld ws p) c c' -> sameValues c c').
  { intros p c c' Hc (EG & _ & _ & V). split; auto. intros k Hk. assert (G : forall x, In x (allHeld ws p) -> goodComp dim x) by (intros x Hx; apply (wide_held_good dim rest np conf tasks ws p x I Hx)).
    destruct (points_cover dim c k (G c Hc) Hk) as (l & j & Hl & Hj & <-). destruct (V l j Hl Hj) as [A B]. destruct (CU p) as [CO UN].
    destruct (in_dec (list_eq_dec Z.eq_dec) l levels) as [Y|Y]; [|auto]. rewrite A by auto. apply (weightedSum_consistent dim levels); auto. apply Forall_forall. exact G. }
  split; auto. intros s ps Es. destruct (F s ps Es) as (ps' & Es' & LP & G). exists ps'. split; auto. split; auto. intros p pr Epr. destruct (G p pr Epr) as (pr' & Epr' & FG). exists pr'. split; auto.
  apply (nested_imp (combinedTask levels (allHeld ws p))); auto. intros c c' Hc. apply K. unfold allHeld. apply in_flat_map. exists ps. split; [now apply nth_error_In in Es|]. unfold tasksHeld. now rewrite Epr.
Qed.

(** After any combination the tasks of all systems have the same values at common points. *)
Theorem C106_consistent : forall esz dim rest np fuel conf tasks ws conf' olds ws', let levels := repeat 1 dim :: rest in
  sortedLevels dim levels -> Forall (Forall (Z.le 1)) levels -> chunkedFits dim levels np conf tasks -> reachableChunked esz levels np fuel conf tasks ws ->
  (forall s, (s < length tasks)%nat -> fOut (conf' s) = fOut (conf s) /\ confFits levels np tasks fuel (olds s) (conf' s)) ->
  combineChunked esz levels conf' fuel olds ws = Some ws' -> forall p, consistent levels (allHeld ws' p).
Proof.
  intros esz dim rest np fuel conf tasks ws conf' olds ws' levels HL HP HF HR HC EW p. pose proof (reachableChunked_inv dim rest HL HP esz np fuel conf tasks HF ws HR) as I.
  destruct (C106_combination esz dim rest np fuel conf tasks ws conf' olds HL HP HF HR HC) as (w & EW' & FW). fold levels in EW', FW. rewrite EW in EW'. injection EW' as <-.
  apply (combined_consistent levels (allHeld ws p)); [exact (everyTask_held _ _ _ p FW)|]. intros c c' l Hc Hc' Hl Hl'.
  destruct (wide_held_good dim rest np conf tasks ws p c I Hc) as [_ A], (wide_held_good dim rest np conf tasks ws p c' I Hc') as [_ A']. apply Nat2Z.inj. rewrite A, A'; auto.
Qed.

(** The variant sparseGridReduce (C92) with the same tasks, whatever their distribution to systems and groups, gives the same values. *)
Theorem C106_as_sparse_grid_reduce : forall esz dim rest np fuel conf tasks ws conf' olds ws' esz1 fuel1 conf1 tasks1 ws1 conf1' olds1 ws1', let levels := repeat 1 dim :: rest in
  sortedLevels dim levels -> Forall (Forall (Z.le 1)) levels -> chunkedFits dim levels np conf tasks -> reachableChunked esz levels np fuel conf tasks ws ->
  (forall s, (s < length tasks)%nat -> fOut (conf' s) = fOut (conf s) /\ confFits levels np tasks fuel (olds s) (conf' s)) ->
  combineChunked esz levels conf' fuel olds ws = Some ws' ->
  wideFits dim levels np conf1 tasks1 -> reachableWide esz1 levels np fuel1 conf1 tasks1 ws1 ->
  (forall s, (s < length tasks1)%nat -> fOut (conf1' s) = fOut (conf1 s) /\ confFits levels np tasks1 fuel1 (olds1 s) (conf1' s)) ->
  combineWide esz1 levels conf1' fuel1 olds1 ws1 = Some ws1' ->
  forall p, Permutation (allHeld ws p) (allHeld ws1 p) ->
  forall c c1 c2, In (c, c1) (combine (allHeld ws p) (allHeld ws' p)) -> In (c, c2) (combine (allHeld ws1 p) (allHeld ws1' p)) -> sameValues c1 c2.
Proof.
  intros esz dim rest np fuel conf tasks ws conf' olds ws' esz1 fuel1 conf1 tasks1 ws1 conf1' olds1 ws1' levels HL HP HF HR HC EW HF1 HR1 HC1 EW1 p PM c c1 c2 H1 H2.
  destruct (C106_combination esz dim rest np fuel conf tasks ws conf' olds HL HP HF HR HC) as (w & EW' & FW). fold levels in EW', FW. rewrite EW in EW'. injection EW' as <-.
  destruct (C92_combination esz1 dim rest np fuel1 conf1 tasks1 ws1 conf1' olds1 HL HP HF1 HR1 HC1) as (w1 & EW1' & FW1). fold levels in EW1', FW1. rewrite EW1 in EW1'. injection EW1' as <-.
  pose proof (reachableWide_inv dim rest HL HP esz1 np fuel1 conf1 tasks1 HF1 ws1 HR1) as I1.
  destruct (Forall2_combine_In _ _ _ _ _ (everyTask_held _ _ _ p FW1) H2) as [Hc2 H2'].
  apply (combined_same dim levels (allHeld ws p) (allHeld ws1 p) c); auto.
  - exact (proj1 (WideProps.wide_held_good dim rest np conf1 tasks1 ws1 p c I1 Hc2)).
  - intros l j. now apply weightedSum_perm.
  - exact (proj2 (Forall2_combine_In _ _ _ _ _ (everyTask_held _ _ _ p FW) H1)).
Qed.

(** ** Examples *)
From Verif Require Import DecompModel SystemModel SystemProofs SystemProps.

(** The systems of C92's example. *)
Example C106_ex_hyps : chunkedFits 2 (yLevels exSetup) 2 exConf exWide /\ forall s, (s < length exWide)%nat -> fOut (exConf s) = fOut (exConf s) /\ confFits (yLevels exSetup) 2 exWide 10 (exOld s) (exConf s).
Proof.
  destruct C92_ex_hyps as [A B]. split; auto. split; auto. split.
  - intros [|[|s]] ts [|[|p]] gs Es Eg; cbn in Es; try (destruct s; discriminate); injection Es as <-; cbn in Eg; try (destruct p; discriminate); injection Eg as <-; cbn; lia.
  - intros p Hp. assert (p = 0 \/ p = 1)%nat as [-> | ->] by lia; vm_compute; reflexivity.
Qed.
Definition exChunkedTwice : option (list (list (list (list (list Q)))) * list (list (list (list (list Q))))) :=
  match startChunked 8 (yLevels exSetup) exConf exWide with
  | None => None
  | Some ws => match combineChunked 8 (yLevels exSetup) exConf 10 exOld ws with
               | None => None
               | Some ws1 => match combineChunked 8 (yLevels exSetup) exConf 10 (fun _ => Some (repeat (toQc 7) 9)) ws1 with
                             | None => None
                             | Some ws2 => Some (exShow ws1, exShow ws2)
                             end
               end
  end.
Example C106_ex : exChunkedTwice = Some (exCombined, exCombined).
Proof. vm_compute. reflexivity. Qed.

Print Assumptions C106_start.
Print Assumptions C106_combination.
Print Assumptions C106_as_one_system.
Print Assumptions C106_as_sparse_grid_reduce.
Print Assumptions C106_projection.
Print Assumptions C106_consistent.
