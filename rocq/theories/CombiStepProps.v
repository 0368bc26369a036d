(** Properties C26, C27 and C31: the combination step. *)
From Verif Require Import Base TensorModel TensorProofs Level1dModel LevelSetsModel LevelSetsProofs SubspaceModel SubspaceProofs SubspaceProps CombiSchemeModel CombiSchemeProofs CombiSchemeProps Hier1dModel Hier1dProofs HierMassProofs
  DofProofs SparseGridModel SparseGridProofs CombineModel SparseTransferProofs SparseGridProps ReduceModel ReduceProofs VoteProofs SubspaceReduceProofs
  CombiStepModel CombiStepProofs CombiInitProofs.
From Coq Require Import QArith Qcanon.
Open Scope Z_scope.
Ltac Zify.zify_post_hook ::= idtac.

(** Between two combination steps the tasks compute new values. *)
Definition solvedTask (c c' : Comp) : Prop := c' = withValues c (cValues c').
Definition solved (g g' : Group) : Prop := Forall2 solvedTask (gTasks g) (gTasks g') /\ gDsg g' = gDsg g /\ gComms g' = gComms g.

(** The communicators of the groups, each once, in some order. *)
Definition anyOrder (gs : list Group) (order : list (list nat)) : Prop :=
  Permutation order (allComms (length gs) (fun r => match nth_error gs r with Some g => gComms g | None => [] end)).

(** The states that can be reached from the start by computing and combining. *)
Inductive reachable (v : CombinationVariant) (esz : Z) (levels : list (list Z)) (tasks : list (list Comp)) : list Group -> Prop :=
| reach_init : forall gs, initGroups v esz levels tasks = Some gs -> reachable v esz levels tasks gs
| reach_solve : forall gs gs', reachable v esz levels tasks gs -> Forall2 solved gs gs' -> reachable v esz levels tasks gs'
| reach_combine : forall gs gs' chunk order, reachable v esz levels tasks gs -> 0 < chunk < 2 ^ 31 -> anyOrder gs order ->
    combineStep v esz chunk order levels gs = Some gs' -> reachable v esz levels tasks gs'.

(** Group [r] and another group have points of the level [l] of the sparse grid. *)
Definition holdsLevel (tasks : list (list Comp)) (l : list Z) (r : nat) : Prop :=
  exists c, In c (nth r tasks []) /\ containsL c l /\ pointsOf c l <> [].
Definition sharesLevel (levels : list (list Z)) (tasks : list (list Comp)) (r : nat) : Prop :=
  exists l r', In l levels /\ r' <> r /\ holdsLevel tasks l r /\ holdsLevel tasks l r'.

(** What the variants need: buffers of less than 2^31 elements, at most 256 groups, and for the outgroup variants that all
    groups or none share a level with another one. *)
Definition variantFits (v : CombinationVariant) (levels : list (list Z)) (tasks : list (list Comp)) : Prop :=
  let cnt := cntOf (concat tasks) in
  let joined := (forall r, (r < length tasks)%nat -> sharesLevel levels tasks r) \/ (forall r, ~ sharesLevel levels tasks r) in
  match v with
  | VSparseGrid => zsum (map cnt levels) < 2 ^ 31
  | VSubspace => zsum (map cnt levels) < 2 ^ 31 /\ (length tasks <= 256)%nat
  | VOutgroup => zsum (map cnt levels) < 2 ^ 31 /\ (length tasks <= 256)%nat /\ joined
  | VChunkedOutgroup => (forall l, In l levels -> cnt l < 2 ^ 31) /\ (length tasks <= 256)%nat /\ joined
  end.

(** The tasks of all groups on the processes of one global-reduce communicator. *)
Definition tasksFit (dim : nat) (tasks : list (list Comp)) : Prop :=
  Forall (goodComp dim) (concat tasks) /\ SparseTransferProofs.agree (concat tasks) /\
  (forall c l, In c (concat tasks) -> containsL c l -> Z.of_nat (length (pointsOf c l)) < 2 ^ 32).

(** The values a task has after combining the tasks [all]: the weighted sum of all tasks that contain the subspace at the
    points of the subspaces of the sparse grid, the old values elsewhere. *)
Definition combinedTask (levels : list (list Z)) (all : list Comp) (c c' : Comp) : Prop :=
  cGrid c' = cGrid c /\ cCoeff c' = cCoeff c /\ cThreads c' = cThreads c /\
  forall l j, containsL c l -> (j < length (pointsOf c l))%nat -> let k := nth j (pointsOf c l) 0 in
    (In l levels -> cValues c' k = weightedSum all l (Z.of_nat j)) /\ (~ In l levels -> cValues c' k = cValues c k).

Section Invariant.
Variables (dim : nat) (rest : list (list Z)).
Let levels := repeat 1 dim :: rest.
Hypothesis HL : sortedLevels dim levels.
Hypothesis HP : Forall (Forall (Z.le 1)) levels.
Variables (v : CombinationVariant) (esz : Z) (tasks : list (list Comp)).
Hypothesis HT : tasksFit dim tasks.
Hypothesis HV : variantFits v levels tasks.
Let cnt := cntOf (concat tasks).
Let n := Z.of_nat (length levels).

Lemma cnt_range : forall q, 0 <= cnt q < 2 ^ 32.
Proof. intros q. apply cntOf_range. apply HT. Qed.

Lemma tasks_ok : Forall (tasksOk dim cnt) tasks.
Proof.
  destruct HT as (G & A & _). apply Forall_forall. intros cs Hcs.
  assert (IN : forall c, In c cs -> In c (concat tasks)) by (intros c Hc; apply in_concat; eauto). split.
  - apply Forall_forall. intros c Hc. rewrite Forall_forall in G. auto.
  - intros c l Hc Hl. apply cntOf_spec; auto.
Qed.

Definition inv (gs : list Group) : Prop :=
  match v with
  | VSparseGrid => Forall (groupOk dim rest cnt) gs /\ sameSizes gs
  | VSubspace | VOutgroup => Forall (groupOk dim rest cnt) gs /\ commsOk dim rest cnt gs
  | VChunkedOutgroup => Forall (chunkGroupOk dim rest cnt) gs /\ exists is, chunkedOk dim rest cnt gs is
  end.

Definition sameGroup (g g' : Group) : Prop := Forall2 solvedTask (gTasks g) (gTasks g') /\ dSizes (gDsg g') = dSizes (gDsg g) /\ gComms g' = gComms g.

Lemma solvedTask_spec : forall c c', solvedTask c c' -> cGrid c' = cGrid c.
Proof. intros c c' H. rewrite H. reflexivity. Qed.

Section Same.
Variables (gs gs' : list Group).
Hypothesis HS : Forall2 sameGroup gs gs'.

Lemma same_length : length gs' = length gs.
Proof. clear - HS. induction HS; cbn; auto. Qed.
Lemma same_nth : forall r, match nth_error gs r, nth_error gs' r with Some g, Some g' => sameGroup g g' | None, None => True | _, _ => False end.
Proof.
  clear - HS. induction HS as [|g g' l l' H F IH]; intros r; [destruct r; exact I|]. destruct r as [|r]; cbn [nth_error]; auto. apply IH. exact F.
Qed.
Lemma same_comms : forall r, commsAt gs' r = commsAt gs r.
Proof. intros r. pose proof (same_nth r) as H. unfold commsAt. destruct (nth_error gs r), (nth_error gs' r); try contradiction; auto. apply H. Qed.
Lemma same_size : forall r i, sizeAt gs' r i = sizeAt gs r i.
Proof. intros r i. pose proof (same_nth r) as H. unfold sizeAt. destruct (nth_error gs r), (nth_error gs' r); try contradiction; auto. unfold dataSize. destruct H as (_ & -> & _). reflexivity. Qed.
Lemma same_tasks : forall r c', In c' (tasksAt gs' r) -> exists c, In c (tasksAt gs r) /\ cGrid c' = cGrid c.
Proof.
  intros r c' Hc. pose proof (same_nth r) as H. unfold tasksAt in *. destruct (nth_error gs r), (nth_error gs' r); try contradiction.
  destruct H as (F & _). destruct (Forall2_In_r _ _ _ _ F Hc) as (c & Hc0 & S). exists c. split; auto. now apply solvedTask_spec.
Qed.

Lemma same_commsOk : commsOk dim rest cnt gs -> commsOk dim rest cnt gs'.
Proof.
  intros (C1 & C2 & C3 & C4 & C5 & C6 & C7). split; [|split; [|split; [|split; [|split; [|split]]]]].
  - intros r M is. rewrite same_comms. apply C1.
  - intros r. rewrite same_comms. apply C2.
  - intros r M is M' is' i. rewrite !same_comms. apply C3.
  - intros r M is. rewrite same_comms. intros H. destruct (C4 r M is H) as [A B]. split; auto. intros r' Hr'. rewrite same_comms. destruct (B r' Hr') as [B1 B2]. split; auto.
    intros i Hi. rewrite !same_size. auto.
  - intros r M is. rewrite same_comms, same_length. apply C5.
  - intros r M is i r' c'. rewrite same_comms. intros H Hi N Hc' Hl. destruct (same_tasks r' c' Hc') as (c & Hc & G). apply (C6 r M is i r' c); auto. unfold containsL in *. now rewrite G in Hl.
  - intros r i r' c' c0' Hi H N Hc0' Hl0 P Hc' Hl. destruct (same_tasks r' c' Hc') as (c & Hc & G). destruct (same_tasks r c0' Hc0') as (c0 & Hc0 & G0).
    apply (C7 r i r' c c0); auto; [intros M is H'; apply (H M is); now rewrite same_comms| |]; unfold containsL in *; congruence.
Qed.
Lemma same_sameSizes : sameSizes gs -> sameSizes gs'.
Proof.
  intros S r r' g g' E E'. pose proof (same_nth r) as H. pose proof (same_nth r') as H'. rewrite E in H. rewrite E' in H'.
  destruct (nth_error gs r) as [g0|] eqn:E0; [|contradiction]. destruct (nth_error gs r') as [g1|] eqn:E1; [|contradiction].
  destruct H as (_ & -> & _), H' as (_ & -> & _). now apply (S r r').
Qed.
Lemma same_chunkedOk : forall is, chunkedOk dim rest cnt gs is -> chunkedOk dim rest cnt gs' is.
Proof.
  intros is (A & B & C & D). split; auto. split; [|split].
  - intros g' Hg'. destruct (Forall2_In_r _ _ _ _ HS Hg') as (g & Hg & (_ & _ & ->)). auto.
  - intros g g' i Hg Hg' Hi. destruct (Forall2_In_r _ _ _ _ HS Hg) as (g0 & Hg0 & (_ & S0 & _)). destruct (Forall2_In_r _ _ _ _ HS Hg') as (g1 & Hg1 & (_ & S1 & _)).
    unfold dataSize. rewrite S0, S1. now apply C.
  - intros r r' c' c0' i Hi H N Hc0' Hl0 P Hc' Hl. destruct (same_tasks r' c' Hc') as (c & Hc & G). destruct (same_tasks r c0' Hc0') as (c0 & Hc0 & G0).
    apply (D r r' c c0 i); auto; unfold containsL in *; congruence.
Qed.
End Same.

Lemma solved_tasksOk : forall cs cs', Forall2 solvedTask cs cs' -> tasksOk dim cnt cs -> tasksOk dim cnt cs'.
Proof.
  intros cs cs' F [G C]. split.
  - apply Forall_forall. intros c' Hc'. destruct (Forall2_In_r _ _ _ _ F Hc') as (c & Hc & S). rewrite Forall_forall in G. rewrite S. exact (G c Hc).
  - intros c' l Hc' Hl. destruct (Forall2_In_r _ _ _ _ F Hc') as (c & Hc & S). rewrite S in *. exact (C c l Hc Hl).
Qed.
Lemma solved_sizesOk : forall cs cs' d, Forall2 solvedTask cs cs' -> sizesOk dim rest cnt cs d -> sizesOk dim rest cnt cs' d.
Proof.
  intros cs cs' d F S c' i Hc' Hi Hl. destruct (Forall2_In_r _ _ _ _ F Hc') as (c & Hc & E). apply (S c i); auto. unfold containsL in *. now rewrite (solvedTask_spec _ _ E) in Hl.
Qed.

Lemma solved_same : forall gs gs', Forall2 solved gs gs' -> Forall2 sameGroup gs gs'.
Proof. intros gs gs' F. eapply Forall2_imp2; [|exact F]. intros g g' (A & B & C). split; auto. split; auto. now rewrite B. Qed.

Lemma inv_solve : forall gs gs', inv gs -> Forall2 solved gs gs' -> inv gs'.
Proof.
  intros gs gs' I F. pose proof (solved_same gs gs' F) as S.
  assert (GO : Forall (groupOk dim rest cnt) gs -> Forall (groupOk dim rest cnt) gs').
  { intros G. apply Forall_forall. intros g' Hg'. destruct (Forall2_In_r _ _ _ _ F Hg') as (g & Hg & (A & B & _)). rewrite Forall_forall in G. destruct (G g Hg) as (T & D & SO).
    split; [now apply (solved_tasksOk (gTasks g))|]. rewrite B. split; auto. now apply (solved_sizesOk (gTasks g)). }
  unfold inv in *. destruct v.
  - destruct I as [G SS]. split; auto. now apply (same_sameSizes gs).
  - destruct I as [G C]. split; auto. now apply (same_commsOk gs).
  - destruct I as [G C]. split; auto. now apply (same_commsOk gs).
  - destruct I as [G (is & C)]. split; [|exists is; now apply (same_chunkedOk gs)].
    apply Forall_forall. intros g' Hg'. destruct (Forall2_In_r _ _ _ _ F Hg') as (g & Hg & (A & B & _)). rewrite Forall_forall in G. destruct (G g Hg) as (T & D & K & SO & X).
    split; [now apply (solved_tasksOk (gTasks g))|]. rewrite B. split; auto. split; auto. split; auto. now apply (solved_sizesOk (gTasks g)).
Qed.

Lemma anyOrder_orderOk : forall gs order, anyOrder gs order -> orderOk gs order.
Proof.
  intros gs order H. unfold anyOrder, allComms in H. split.
  - apply (Permutation_NoDup (Permutation_sym H)). apply NoDup_nodup.
  - intros r M is HI. apply (Permutation_in _ (Permutation_sym H)). apply nodup_In. apply in_flat_map. exists r. split.
    + apply in_seq. assert (nth_error gs r <> None) by (unfold commsAt in HI; destruct (nth_error gs r); [discriminate|destruct HI]). apply nth_error_Some in H0. lia.
    + apply (in_map fst) in HI. exact HI.
Qed.

Lemma inv_step : forall gs chunk order, inv gs -> 0 < chunk < 2 ^ 31 -> anyOrder gs order ->
  exists gs', combineStep v esz chunk order levels gs = Some gs' /\
    Forall2 (stepped (weightedSum (allTasks gs)) (fun l => In l levels)) gs gs' /\ inv gs'.
Proof.
  intros gs chunk order I HC HO. pose proof (anyOrder_orderOk gs order HO) as OO.
  assert (SG : forall gs', Forall2 (stepped (weightedSum (allTasks gs)) (fun l => In l levels)) gs gs' -> Forall2 sameGroup gs gs').
  { intros gs' F. eapply Forall2_imp2; [|exact F]. intros g g' (A & B & C). split; [|auto]. eapply Forall2_imp2; [|exact A]. intros c c' [E _]. exact E. }
  assert (SPL : forall (Q : Group -> Prop) gs', Forall2 (fun g g' => stepped (weightedSum (allTasks gs)) (fun l => In l levels) g g' /\ Q g') gs gs' ->
     Forall2 (stepped (weightedSum (allTasks gs)) (fun l => In l levels)) gs gs' /\ Forall Q gs').
  { intros Q gs' F. split; [eapply Forall2_imp2; [|exact F]; tauto|]. apply Forall_forall. intros g' Hg'. destruct (Forall2_In_r _ _ _ _ F Hg') as (g & _ & _ & H). exact H. }
  unfold inv in *. destruct v; cbn [combineStep] in *.
  - destruct I as [G S]. destruct (step_spec dim rest HL HP cnt cnt_range VSparseGrid gs esz chunk order G HC S) as (gs' & E & F). exists gs'. split; auto. apply SPL in F. destruct F as [F Q].
    split; auto. split; auto. now apply (same_sameSizes gs); auto.
  - destruct I as [G S]. destruct (step_spec dim rest HL HP cnt cnt_range VSubspace gs esz chunk order G HC (conj S OO)) as (gs' & E & F). exists gs'. split; auto. apply SPL in F. destruct F as [F Q].
    split; auto. split; auto. now apply (same_commsOk gs); auto.
  - destruct I as [G S]. destruct (step_spec dim rest HL HP cnt cnt_range VOutgroup gs esz chunk order G HC (conj S OO)) as (gs' & E & F). exists gs'. split; auto. apply SPL in F. destruct F as [F Q].
    split; auto. split; auto. now apply (same_commsOk gs); auto.
  - destruct I as [G (is & S)]. destruct (collect_spec dim rest HL HP cnt cnt_range esz chunk gs is HC G S) as (gs' & E & F). exists gs'. split; auto. apply SPL in F. destruct F as [F Q].
    split; auto. split; auto. exists is. now apply (same_chunkedOk gs); auto.
Qed.

Lemma map_lvl : forall (l : list (list Z)), map (fun i => cnt (nth (Z.to_nat i) l [])) (zrange 0 (Z.of_nat (length l))) = map cnt l.
Proof.
  intros l. unfold zrange. replace (Z.to_nat (Z.of_nat (length l) - 0)) with (length l) by lia.
  assert (H : forall m a, zseq (Z.of_nat a) m = map Z.of_nat (seq a m)).
  { induction m as [|m IH]; intros a; auto. cbn [zseq seq map]. f_equal. rewrite <- IH. f_equal. lia. }
  change 0 with (Z.of_nat 0). rewrite H, map_map. transitivity (map (fun x => cnt (nth x l [])) (seq 0 (length l))); [apply map_ext; intros x; now rewrite Nat2Z.id|].
  rewrite <- (map_map (fun x => nth x l []) cnt), nth_seq_map. reflexivity.
Qed.

Lemma holds_iff : forall r l, (exists c, In c (nth r tasks []) /\ containsL c l) /\ 0 < cnt l <-> holdsLevel tasks l r.
Proof.
  intros r l. destruct HT as (G & A & _).
  assert (IN : forall c, In c (nth r tasks []) -> In c (concat tasks)).
  { intros c Hc. destruct (nth_in_or_default r tasks []) as [H|H]; [apply in_concat; eauto|]. rewrite H in Hc. destruct Hc. }
  split.
  - intros [(c & Hc & Hl) P]. exists c. split; auto. split; auto. intros Z0. pose proof (cntOf_spec (concat tasks) c l A (IN c Hc) Hl) as X. rewrite Z0 in X. cbn in X. unfold cnt in P. lia.
  - intros (c & Hc & Hl & N). split; [eauto|]. unfold cnt. rewrite <- (cntOf_spec (concat tasks) c l A (IN c Hc) Hl). destruct (pointsOf c l); [contradiction|cbn; lia].
Qed.

Lemma shares_iff : forall r, sharesLevel levels tasks r <-> exists i, sharedTask dim rest cnt tasks r i.
Proof.
  intros r. split.
  - intros (l & r' & Hin & N & H & H'). apply holds_iff in H, H'. destruct (position_In levels l Hin) as [P1 P2]. exists (position levels l).
    unfold sharedTask, holdsTask. fold levels. rewrite P2. split; [exact P1|]. split; [tauto|]. split; [tauto|]. exists r'. tauto.
  - intros (i & Hi & P & H & r' & N & H'). exists (nth (Z.to_nat i) levels []), r'. split; [apply nth_In; unfold levels in *; lia|]. split; auto.
    split; apply holds_iff; auto.
Qed.

Lemma inv_init : exists gs, initGroups v esz levels tasks = Some gs /\ map gTasks gs = tasks /\ inv gs.
Proof.
  assert (ML : zsum (map cnt levels) = zsum (map (fun i => cnt (nth (Z.to_nat i) (repeat 1 dim :: rest) [])) (zrange 0 (Z.of_nat (length (repeat 1 dim :: rest)))))) by (f_equal; symmetry; apply map_lvl).
  assert (JO : (forall r, (r < length tasks)%nat -> sharesLevel levels tasks r) \/ (forall r, ~ sharesLevel levels tasks r) -> outgroupJoined dim rest cnt tasks).
  { intros [J|J]; [left|right].
    - intros r Hr. apply shares_iff. now apply J.
    - intros r i X. apply (J r). apply shares_iff. eauto. }
  unfold inv. unfold variantFits in HV. cbv zeta in HV. fold cnt in HV. destruct v.
  - rewrite ML in HV. exact (init_sparseGrid dim rest HL HP cnt cnt_range esz tasks tasks_ok HV).
  - destruct HV as [H1 H2]. rewrite ML in H1. exact (init_subspace dim rest HL HP cnt cnt_range esz tasks tasks_ok H1 H2).
  - destruct HV as (H1 & H2 & H3). rewrite ML in H1. exact (init_outgroup dim rest HL HP cnt cnt_range esz tasks tasks_ok H1 H2 (JO H3)).
  - destruct HV as (H1 & H2 & H3). destruct (init_chunked dim rest HL HP cnt cnt_range esz tasks tasks_ok) as (gs & is & E & M & G & C); auto.
    + intros i Hi. apply H1. apply nth_In. unfold levels. lia.
    + exists gs. split; auto. split; auto. split; auto. now exists is.
Qed.

Lemma reachable_inv : forall gs, reachable v esz levels tasks gs -> inv gs.
Proof.
  intros gs H. induction H as [gs E|gs gs' H IH F|gs gs' chunk order H IH HC HO E].
  - destruct inv_init as (gs0 & E0 & _ & I). congruence.
  - now apply (inv_solve gs).
  - destruct (inv_step gs chunk order IH HC HO) as (gs1 & E1 & _ & I). congruence.
Qed.
End Invariant.

Lemma steppedTask_combined : forall levels all c c', updated (weightedSum all) (fun l => In l levels) c c' -> combinedTask levels all c c'.
Proof. intros levels all c c' [E U]. split; [|split; [|split; [|exact U]]]; rewrite E; reflexivity. Qed.

(** ** C31 *)

(** Registering the tasks and agreeing on sizes and communicators succeeds in every variant. *)
Theorem C31_start : forall v esz dim rest tasks, let levels := repeat 1 dim :: rest in
  sortedLevels dim levels -> Forall (Forall (Z.le 1)) levels -> tasksFit dim tasks -> variantFits v levels tasks ->
  exists gs, initGroups v esz levels tasks = Some gs /\ map gTasks gs = tasks.
Proof.
  intros v esz dim rest tasks levels HL HP HT HV. destruct (inv_init dim rest HL HP v esz tasks HT HV) as (gs & E & M & _). eauto.
Qed.

(** In every variant and every state that can be reached, the combination step ends (all groups make matching reductions)
    and gives every task at the points of the sparse grid's subspaces the weighted sum over the tasks of all groups. *)
Theorem C31_combination_step : forall v esz dim rest tasks gs chunk order, let levels := repeat 1 dim :: rest in
  sortedLevels dim levels -> Forall (Forall (Z.le 1)) levels -> tasksFit dim tasks -> variantFits v levels tasks ->
  reachable v esz levels tasks gs -> 0 < chunk < 2 ^ 31 -> anyOrder gs order ->
  exists gs', combineStep v esz chunk order levels gs = Some gs' /\
    Forall2 (fun g g' => Forall2 (combinedTask levels (allTasks gs)) (gTasks g) (gTasks g')) gs gs'.
Proof.
  intros v esz dim rest tasks gs chunk order levels HL HP HT HV HR HC HO.
  pose proof (reachable_inv dim rest HL HP v esz tasks HT HV gs HR) as I.
  destruct (inv_step dim rest HL HP v esz tasks HT HV gs chunk order I HC HO) as (gs' & E & F & _). exists gs'. split; auto.
  eapply Forall2_imp2; [|exact F]. intros g g' (U & _). eapply Forall2_imp2; [|exact U]. intros c c'. apply steppedTask_combined.
Qed.

(** The same values at all local points of the same grid. *)
Definition sameValues (c c' : Comp) : Prop :=
  cGrid c' = cGrid c /\ forall k, 0 <= k < zprod (gSizes (cGrid c)) -> cValues c' k = cValues c k.

Lemma points_cover : forall dim c k, goodComp dim c -> 0 <= k < zprod (gSizes (cGrid c)) ->
  exists l j, containsL c l /\ (j < length (pointsOf c l))%nat /\ nth j (pointsOf c l) 0 = k.
Proof.
  intros dim c k (W & _) Hk. assert (Hin : In k (flat_map (fgPointsOfSubspace (cGrid c)) (getDownSet (gLevel (cGrid c))))).
  { apply (Permutation_in _ (Permutation_sym (C06_subspaces_tile (cGrid c) W))). now apply zrange_In. }
  apply in_flat_map in Hin. destruct Hin as (l & Hl & Hk'). apply downSet_contains in Hl.
  apply (In_nth _ _ 0) in Hk'. destruct Hk' as (j & Hj & Ej). exists l, j. auto.
Qed.

Lemma combined_same : forall dim levels all all' c c1 c2, goodComp dim c -> (forall l j, weightedSum all l j = weightedSum all' l j) ->
  combinedTask levels all c c1 -> combinedTask levels all' c c2 -> sameValues c1 c2.
Proof.
  intros dim levels all all' c c1 c2 G HW (G1 & _ & _ & V1) (G2 & _ & _ & V2). split; [congruence|]. rewrite G1. intros k Hk.
  destruct (points_cover dim c k G Hk) as (l & j & Hl & Hj & <-). destruct (V1 l j Hl Hj) as [A1 B1], (V2 l j Hl Hj) as [A2 B2].
  destruct (in_dec (list_eq_dec Z.eq_dec) l levels) as [Y|Y]; [rewrite A1, A2 by auto; symmetry; apply HW|rewrite B1, B2; auto].
Qed.

Lemma reachable_good : forall v esz dim rest tasks gs, let levels := repeat 1 dim :: rest in
  sortedLevels dim levels -> Forall (Forall (Z.le 1)) levels -> tasksFit dim tasks -> variantFits v levels tasks ->
  reachable v esz levels tasks gs -> forall c, In c (allTasks gs) -> goodComp dim c.
Proof.
  intros v esz dim rest tasks gs levels HL HP HT HV HR c Hc.
  pose proof (reachable_inv dim rest HL HP v esz tasks HT HV gs HR) as I. unfold allTasks in Hc. apply in_flat_map in Hc. destruct Hc as (g & Hg & Hc).
  assert (T : tasksOk dim (cntOf (concat tasks)) (gTasks g)).
  { unfold inv in I. destruct v; destruct I as [G _]; rewrite Forall_forall in G; apply (G g Hg). }
  destruct T as [G _]. rewrite Forall_forall in G. auto.
Qed.

Lemma nested_imp : forall (P Q : Comp -> Comp -> Prop) gs gs', (forall c c', In c (allTasks gs) -> P c c' -> Q c c') ->
  Forall2 (fun g g' => Forall2 P (gTasks g) (gTasks g')) gs gs' -> Forall2 (fun g g' => Forall2 Q (gTasks g) (gTasks g')) gs gs'.
Proof.
  intros P Q gs gs' K F. induction F as [|g g' gs gs' A F IH]; constructor.
  - assert (Kg : forall c c', In c (gTasks g) -> P c c' -> Q c c') by (intros c c' Hc; apply K; unfold allTasks; cbn [flat_map]; apply in_or_app; now left).
    clear - A Kg. induction A as [|c c' cs cs' H A IH]; constructor; [apply Kg; auto; now left|]. apply IH. intros x x' Hx. apply Kg. now right.
  - apply IH. intros c c' Hc. apply K. unfold allTasks. cbn [flat_map]. apply in_or_app. now right.
Qed.

(** Two variants in states with the same tasks give the same values at all points of all tasks. *)
Theorem C31_variants_agree : forall v v' esz dim rest tasks gs hs chunk chunk' order order' gs' hs', let levels := repeat 1 dim :: rest in
  sortedLevels dim levels -> Forall (Forall (Z.le 1)) levels -> tasksFit dim tasks -> variantFits v levels tasks -> variantFits v' levels tasks ->
  reachable v esz levels tasks gs -> reachable v' esz levels tasks hs -> map gTasks gs = map gTasks hs ->
  0 < chunk < 2 ^ 31 -> 0 < chunk' < 2 ^ 31 -> anyOrder gs order -> anyOrder hs order' ->
  combineStep v esz chunk order levels gs = Some gs' -> combineStep v' esz chunk' order' levels hs = Some hs' ->
  Forall2 (fun g h => Forall2 sameValues (gTasks g) (gTasks h)) gs' hs'.
Proof.
  intros v v' esz dim rest tasks gs hs chunk chunk' order order' gs' hs' levels HL HP HT HV HV' HR HR' EQ HC HC' HO HO' E E'.
  destruct (C31_combination_step v esz dim rest tasks gs chunk order HL HP HT HV HR HC HO) as (g1 & E1 & F1).
  destruct (C31_combination_step v' esz dim rest tasks hs chunk' order' HL HP HT HV' HR' HC' HO') as (g2 & E2 & F2).
  fold levels in E1, E2, F1, F2. rewrite E in E1. rewrite E' in E2. injection E1 as <-. injection E2 as <-.
  pose proof (reachable_good v esz dim rest tasks gs HL HP HT HV HR) as G.
  assert (AE : allTasks gs = allTasks hs) by (unfold allTasks; rewrite !flat_map_concat_map, EQ; reflexivity).
  rewrite <- AE in F2. clear AE E E' HO HO' HR HR'. revert G F1 F2. generalize (allTasks gs) at 2 3. intros all G F1. revert hs hs' EQ.
  induction F1 as [|g g' gs gs' F F1 IH]; intros hs hs' EQ F2.
  - destruct hs; [|discriminate]. inversion F2. constructor.
  - destruct hs as [|h hs]; [discriminate|]. cbn [map] in EQ. injection EQ as EG EQ. inversion F2 as [|? h' ? hs'' Fh F2']; subst. constructor.
    + rewrite <- EG in Fh. assert (Gg : forall c, In c (gTasks g) -> goodComp dim c) by (intros c Hc; apply G; unfold allTasks; cbn [flat_map]; apply in_or_app; now left).
      clear - F Fh Gg. revert Fh. generalize (gTasks h'). induction F as [|c c1 cs cs1 H F IH]; intros l Fh; inversion Fh; subst; constructor.
      * apply (combined_same dim levels all all c); auto. apply Gg. now left.
      * apply IH; auto. intros x Hx. apply Gg. now right.
    + apply (IH (fun c Hc => G c ltac:(unfold allTasks; cbn [flat_map]; apply in_or_app; right; exact Hc)) hs); auto.
Qed.

(** ** C27 *)

Lemma weightedSum_perm : forall cs cs' l j, Permutation cs cs' -> weightedSum cs l j = weightedSum cs' l j.
Proof.
  intros cs cs' l j P. unfold weightedSum. induction P; cbn [map]; auto.
  - change (contribution l j x + qsum (map (contribution l j) l0) = contribution l j x + qsum (map (contribution l j) l'))%Qc. now rewrite IHP.
  - change (contribution l j y + (contribution l j x + qsum (map (contribution l j) l0)) = contribution l j x + (contribution l j y + qsum (map (contribution l j) l0)))%Qc. ring.
  - congruence.
Qed.

Lemma stepped_pairs : forall levels all gs gs' c c', Forall2 (fun g g' => Forall2 (combinedTask levels all) (gTasks g) (gTasks g')) gs gs' ->
  In (c, c') (combine (allTasks gs) (allTasks gs')) -> In c (allTasks gs) /\ combinedTask levels all c c'.
Proof.
  intros levels all gs gs' c c' F H.
  assert (FF : Forall2 (combinedTask levels all) (allTasks gs) (allTasks gs')).
  { clear H. induction F as [|g g' gs gs' A F IH]; [constructor|]. unfold allTasks. cbn [flat_map]. apply Forall2_app; auto. }
  split; [now apply in_combine_l in H|]. clear F. induction FF as [|a b l l' A F IH]; [destruct H|]. destruct H as [H|H]; [injection H as <- <-; auto|auto].
Qed.

(** The same tasks, assigned to groups in two ways (also to different numbers of groups, in different orders within the
    groups, with different variants, chunk sizes and orders of the reductions), have the same values after combining. *)
Theorem C27_assignment_independent : forall v v' esz esz' dim rest tasks tasks' gs hs chunk chunk' order order' gs' hs', let levels := repeat 1 dim :: rest in
  sortedLevels dim levels -> Forall (Forall (Z.le 1)) levels ->
  tasksFit dim tasks -> tasksFit dim tasks' -> variantFits v levels tasks -> variantFits v' levels tasks' ->
  reachable v esz levels tasks gs -> reachable v' esz' levels tasks' hs -> Permutation (allTasks gs) (allTasks hs) ->
  0 < chunk < 2 ^ 31 -> 0 < chunk' < 2 ^ 31 -> anyOrder gs order -> anyOrder hs order' ->
  combineStep v esz chunk order levels gs = Some gs' -> combineStep v' esz' chunk' order' levels hs = Some hs' ->
  forall c c1 c2, In (c, c1) (combine (allTasks gs) (allTasks gs')) -> In (c, c2) (combine (allTasks hs) (allTasks hs')) -> sameValues c1 c2.
Proof.
  intros v v' esz esz' dim rest tasks tasks' gs hs chunk chunk' order order' gs' hs' levels HL HP HT HT' HV HV' HR HR' PM HC HC' HO HO' E E' c c1 c2 H1 H2.
  destruct (C31_combination_step v esz dim rest tasks gs chunk order HL HP HT HV HR HC HO) as (g1 & E1 & F1).
  destruct (C31_combination_step v' esz' dim rest tasks' hs chunk' order' HL HP HT' HV' HR' HC' HO') as (g2 & E2 & F2).
  fold levels in E1, E2, F1, F2. rewrite E in E1. rewrite E' in E2. injection E1 as <-. injection E2 as <-.
  apply (stepped_pairs levels (allTasks gs)) in H1; auto. apply (stepped_pairs levels (allTasks hs)) in H2; auto. destruct H1 as [Hc H1], H2 as [_ H2].
  apply (combined_same dim levels (allTasks gs) (allTasks hs) c); auto.
  - now apply (reachable_good v esz dim rest tasks gs HL HP HT HV HR).
  - intros l j. now apply weightedSum_perm.
Qed.

(** ** C26 *)

(** Tasks that contain a common subspace of the sparse grid have the same values there. *)
Definition consistent (levels : list (list Z)) (all : list Comp) : Prop :=
  forall c c' l j, In c all -> In c' all -> In l levels -> containsL c l -> containsL c' l ->
    (j < length (pointsOf c l))%nat -> cValues c (nth j (pointsOf c l) 0) = cValues c' (nth j (pointsOf c' l) 0).

(** The coefficients of the tasks with a subspace add up to one. *)
Definition unity (levels : list (list Z)) (all : list Comp) : Prop :=
  forall l c, In l levels -> In c all -> containsL c l -> qsum (map cCoeff (filter (fun c => vleb l (gLevel (cGrid c))) all)) = 1%Qc.

Lemma weightedSum_consistent : forall dim levels all c l j, Forall (goodComp dim) all -> sortedLevels dim levels -> Forall (Forall (Z.le 1)) levels ->
  consistent levels all -> unity levels all -> In c all -> In l levels -> containsL c l -> (j < length (pointsOf c l))%nat ->
  weightedSum all l (Z.of_nat j) = cValues c (nth j (pointsOf c l) 0).
Proof.
  intros dim levels all c l j G SL PL HC HU Hc Hl Hcl Hj. set (x := cValues c _).
  assert (S : forall cs, (forall c', In c' cs -> In c' all) -> weightedSum cs l (Z.of_nat j) = (qsum (map cCoeff (filter (fun c => vleb l (gLevel (cGrid c))) cs)) * x)%Qc).
  { induction cs as [|c' cs IH]; intros H; [unfold weightedSum; cbn [map filter]; change (qsum []) with 0%Qc; ring|].
    unfold weightedSum in *. cbn [map filter]. change (qsum (?a :: ?b)) with (a + qsum b)%Qc. rewrite IH by (intros y Hy; apply H; now right).
    assert (CT : contribution l (Z.of_nat j) c' = if vleb l (gLevel (cGrid c')) then (cCoeff c' * x)%Qc else 0%Qc).
    { unfold contribution. destruct (vleb l (gLevel (cGrid c'))) eqn:V; auto. f_equal. rewrite Nat2Z.id. symmetry. apply HC; auto; [apply H; now left|].
      rewrite Forall_forall in G. destruct (G c' (H c' (or_introl eq_refl))) as (_ & LC & _). rewrite Forall_forall in PL. specialize (PL l Hl).
      destruct SL as [_ SL]. rewrite Forall_forall in SL. specialize (SL l Hl). apply vleb_contains; auto. congruence. }
    rewrite CT. destruct (vleb l (gLevel (cGrid c'))); cbn [map]; [change (qsum (?a :: ?b)) with (a + qsum b)%Qc|]; ring. }
  rewrite (S all) by auto. rewrite (HU l c) by auto. ring.
Qed.

(** Consistent values stay as they are, if the coefficients add up to one on every subspace. *)
Theorem C26_projection : forall v esz dim rest tasks gs chunk order, let levels := repeat 1 dim :: rest in
  sortedLevels dim levels -> Forall (Forall (Z.le 1)) levels -> tasksFit dim tasks -> variantFits v levels tasks ->
  reachable v esz levels tasks gs -> 0 < chunk < 2 ^ 31 -> anyOrder gs order ->
  consistent levels (allTasks gs) -> unity levels (allTasks gs) ->
  exists gs', combineStep v esz chunk order levels gs = Some gs' /\
    Forall2 (fun g g' => Forall2 sameValues (gTasks g) (gTasks g')) gs gs'.
Proof.
  intros v esz dim rest tasks gs chunk order levels HL HP HT HV HR HC HO CO UN.
  destruct (C31_combination_step v esz dim rest tasks gs chunk order HL HP HT HV HR HC HO) as (gs' & E & F). fold levels in E, F. exists gs'. split; auto.
  pose proof (reachable_good v esz dim rest tasks gs HL HP HT HV HR) as G.
  assert (K : forall c c', In c (allTasks gs) -> combinedTask levels (allTasks gs) c c' -> sameValues c c').
  { intros c c' Hc (EG & _ & _ & V). split; auto. intros k Hk. destruct (points_cover dim c k (G c Hc) Hk) as (l & j & Hl & Hj & <-). destruct (V l j Hl Hj) as [A B].
    destruct (in_dec (list_eq_dec Z.eq_dec) l levels) as [Y|Y]; [|auto]. rewrite A by auto. apply (weightedSum_consistent dim levels); auto. apply Forall_forall. exact G. }
  eapply nested_imp; [|exact F]. exact K.
Qed.

Lemma combined_all : forall levels all gs gs', Forall2 (fun g g' => Forall2 (combinedTask levels all) (gTasks g) (gTasks g')) gs gs' ->
  Forall2 (combinedTask levels all) (allTasks gs) (allTasks gs').
Proof.
  intros levels all gs gs' F. induction F as [|g g' gs gs' A F IH]; [constructor|]. unfold allTasks. cbn [flat_map]. apply Forall2_app; auto.
Qed.

Lemma combined_consistent : forall levels all all', Forall2 (combinedTask levels all) all all' -> (forall c c' l, In c all -> In c' all -> containsL c l -> containsL c' l -> length (pointsOf c l) = length (pointsOf c' l)) ->
  consistent levels all'.
Proof.
  intros levels all all' F A c1 c2 l j H1 H2 Hl HC1 HC2 Hj.
  destruct (Forall2_In_r _ _ _ _ F H1) as (d1 & D1 & (G1 & _ & _ & V1)), (Forall2_In_r _ _ _ _ F H2) as (d2 & D2 & (G2 & _ & _ & V2)).
  unfold containsL, pointsOf in *. rewrite G1 in HC1, Hj. rewrite G2 in HC2. rewrite G1, G2.
  destruct (V1 l j HC1 Hj) as [X1 _]. rewrite (A d1 d2 l) in Hj by auto. destruct (V2 l j HC2 Hj) as [X2 _].
  unfold pointsOf in *. rewrite X1, X2 by auto. reflexivity.
Qed.

Lemma combined_coeffs : forall levels all0 all all' l, Forall2 (combinedTask levels all0) all all' ->
  map cCoeff (filter (fun c => vleb l (gLevel (cGrid c))) all') = map cCoeff (filter (fun c => vleb l (gLevel (cGrid c))) all).
Proof.
  intros levels all0 all all' l F. induction F as [|c c' cs cs' (G & C & _) F IH]; auto. cbn [filter]. rewrite G. destruct (vleb l _); cbn [map]; congruence.
Qed.

(** After any step the tasks are consistent; a second step right after the first one, with other chunks and in another
    order, changes nothing. *)
Theorem C26_idempotent : forall v esz dim rest tasks gs chunk order gs1, let levels := repeat 1 dim :: rest in
  sortedLevels dim levels -> Forall (Forall (Z.le 1)) levels -> tasksFit dim tasks -> variantFits v levels tasks ->
  reachable v esz levels tasks gs -> 0 < chunk < 2 ^ 31 -> anyOrder gs order -> unity levels (allTasks gs) ->
  combineStep v esz chunk order levels gs = Some gs1 ->
  consistent levels (allTasks gs1) /\
  forall chunk' order', 0 < chunk' < 2 ^ 31 -> anyOrder gs1 order' ->
  exists gs2, combineStep v esz chunk' order' levels gs1 = Some gs2 /\
    Forall2 (fun g g' => Forall2 sameValues (gTasks g) (gTasks g')) gs1 gs2.
Proof.
  intros v esz dim rest tasks gs chunk order gs1 levels HL HP HT HV HR HC HO UN E.
  destruct (C31_combination_step v esz dim rest tasks gs chunk order HL HP HT HV HR HC HO) as (g1 & E1 & F). fold levels in E1, F. rewrite E in E1. injection E1 as <-.
  apply combined_all in F. pose proof (reach_combine v esz levels tasks gs gs1 chunk order HR HC HO E) as HR1.
  assert (AG : forall c c' l, In c (allTasks gs) -> In c' (allTasks gs) -> containsL c l -> containsL c' l -> length (pointsOf c l) = length (pointsOf c' l)).
  { intros c c' l Hc Hc' L L'. pose proof (reachable_inv dim rest HL HP v esz tasks HT HV gs HR) as I. unfold allTasks in Hc, Hc'. apply in_flat_map in Hc, Hc'. destruct Hc as (g & Hg & Hc), Hc' as (g' & Hg' & Hc').
    assert (T : forall g, In g gs -> tasksOk dim (cntOf (concat tasks)) (gTasks g)).
    { intros g0 Hg0. unfold inv in I. destruct v; destruct I as [G _]; rewrite Forall_forall in G; apply (G g0 Hg0). }
    apply Nat2Z.inj. transitivity (cntOf (concat tasks) l); [|symmetry]; [destruct (T g Hg) as [_ X]|destruct (T g' Hg') as [_ X]]; apply X; auto. }
  assert (CO : consistent levels (allTasks gs1)) by (eapply combined_consistent; eauto). split; auto.
  intros chunk' order' HC' HO'. apply (C26_projection v esz dim rest tasks gs1 chunk' order'); auto.
  intros l c Hl Hc HCl. rewrite (combined_coeffs levels (allTasks gs) (allTasks gs)) by exact F.
  destruct (Forall2_In_r _ _ _ _ F Hc) as (c0 & Hc0 & (G0 & _)). apply (UN l c0); auto. unfold containsL in *. now rewrite <- G0.
Qed.

(** The level and the coefficient of a task never change. *)
Definition levelCoeff (c : Comp) : list Z * Qc := (gLevel (cGrid c), cCoeff c).
Lemma combined_levelCoeff : forall levels all0 all all', Forall2 (combinedTask levels all0) all all' -> map levelCoeff all' = map levelCoeff all.
Proof. intros levels all0 all all' F. induction F as [|c c' cs cs' (G & C & _) F IH]; auto. cbn [map]. rewrite IH. f_equal. unfold levelCoeff. now rewrite G, C. Qed.
Lemma reachable_levelCoeff : forall v esz dim rest tasks gs, let levels := repeat 1 dim :: rest in
  sortedLevels dim levels -> Forall (Forall (Z.le 1)) levels -> tasksFit dim tasks -> variantFits v levels tasks ->
  reachable v esz levels tasks gs -> map levelCoeff (allTasks gs) = map levelCoeff (concat tasks).
Proof.
  intros v esz dim rest tasks gs levels HL HP HT HV HR. induction HR as [gs E|gs gs' HR IH F|gs gs' chunk order HR IH HC HO E].
  - destruct (inv_init dim rest HL HP v esz tasks HT HV) as (gs0 & E0 & M & _). assert (gs0 = gs) by (fold levels in E0; congruence). subst gs0.
    unfold allTasks. rewrite flat_map_concat_map, M. reflexivity.
  - rewrite <- IH. clear - F. induction F as [|g g' gs gs' (A & _) F IH]; auto. unfold allTasks in *. cbn [flat_map]. rewrite !map_app, IH. f_equal.
    clear - A. induction A as [|c c' cs cs' H A IH]; auto. cbn [map]. rewrite IH. f_equal. rewrite H. reflexivity.
  - rewrite <- IH. destruct (C31_combination_step v esz dim rest tasks gs chunk order HL HP HT HV HR HC HO) as (g1 & E1 & F). fold levels in E1, F. rewrite E in E1. injection E1 as <-.
    apply combined_all in F. eapply combined_levelCoeff; eauto.
Qed.

(** The grids and coefficients the library computes: the classical scheme, with fault-tolerance grids or without, and the
    adaptive scheme. *)
Definition schemeOf (lmin lmax : list Z) (s : Scheme) : Prop :=
  s = adaptiveScheme lmin lmax \/ lmin <> lmax /\ (s = classicalScheme lmin lmax \/ s = makeFaultTolerant lmax (classicalScheme lmin lmax)).
Definition toQc (z : Z) : Qc := Q2Qc (inject_Z z).
(** The tasks are the grids of a scheme. *)
Definition tasksOf (s : Scheme) (all : list Comp) : Prop :=
  Permutation (map levelCoeff all) (combine (sSpaces s) (map toQc (sCoeffs s))).

Lemma toQc_add : forall a b, toQc (a + b) = (toQc a + toQc b)%Qc.
Proof. intros a b. unfold toQc. apply Qc_is_canon. cbn [this Q2Qc Qcplus]. rewrite !Qred_correct. unfold Qeq, inject_Z, Qplus. cbn. lia. Qed.

Lemma schemeOf_unity : forall lmin lmax s l k, Forall2 Z.le lmin lmax -> lmin <> [] -> Forall (fun x => 1 <= x) lmin -> schemeOf lmin lmax s ->
  In l (sSpaces s) -> Forall2 Z.le k l -> coeffSum (sSpaces s) (sCoeffs s) k = 1.
Proof.
  intros lmin lmax s l k F N P S Hl Hk. destruct S as [->|(NE & S)].
  - apply (C13_adaptive_scheme_partition_of_unity lmin lmax l k F N P); auto.
    destruct (adaptiveSpaces_wf lmin lmax F N P) as [W1 W2].
    assert (Hd : (0 < length lmin)%nat) by (destruct lmin; [congruence|cbn; lia]).
    pose proof (adaptiveCoeffs_eq (length lmin) _ Hd (conj W1 W2)) as E. cbv zeta in E. unfold adaptiveScheme in Hl.
    destruct (adaptiveCoeffs (adaptiveSpaces lmin lmax)) as [sp co]. cbn [fst snd sSpaces] in *. injection E. intros _ E2. rewrite E2 in Hl. now apply filter_In in Hl.
  - destruct (C10_classical_partition_of_unity_partial lmin lmax s F P NE S) as [_ U]. apply (U l); auto.
    destruct S as [->| ->]; [now apply spaces_in_levels|]. unfold makeFaultTolerant in *. destruct (list_eq_dec _ _ _); [now apply spaces_in_levels|].
    cbn [sSpaces sLevels] in *. apply in_app_or in Hl. destruct Hl as [Hl|Hl]; [now apply spaces_in_levels|].
    unfold spacesOnDiagonals in Hl. apply in_flat_map in Hl. destruct Hl as [x [Hx Hl]]. apply in_flat_map in Hl. destruct Hl as [p [_ Hl]].
    destruct (_ && _); [|contradiction]. destruct Hl as [->|[]]. auto.
Qed.

Lemma tasksOf_sum : forall sp co all l, Forall (fun x => length x = length l) sp -> Permutation (map levelCoeff all) (combine sp (map toQc co)) ->
  qsum (map cCoeff (filter (fun c => vleb l (gLevel (cGrid c))) all)) = toQc (coeffSum sp co l).
Proof.
  intros sp co all l LS PM.
  assert (E1 : qsum (map cCoeff (filter (fun c => vleb l (gLevel (cGrid c))) all)) = qsum (map snd (filter (fun p : list Z * Qc => vleb l (fst p)) (map levelCoeff all)))).
  { clear. induction all as [|c all IH]; auto. cbn [map filter levelCoeff fst]. destruct (vleb l _); auto. cbn [map snd]. change (qsum (?a :: ?b)) with (a + qsum b)%Qc. now rewrite IH. }
  assert (E2 : forall a b, Permutation a b -> qsum (map snd (filter (fun p : list Z * Qc => vleb l (fst p)) a)) = qsum (map snd (filter (fun p : list Z * Qc => vleb l (fst p)) b))).
  { clear. induction 1; auto.
    - cbn [filter]. destruct (vleb l (fst x)); auto. cbn [map]. change (qsum (?a :: ?b)) with (a + qsum b)%Qc. now rewrite IHPermutation.
    - cbn [filter]. destruct (vleb l (fst x)), (vleb l (fst y)); auto. cbn [map]. change (qsum (?a :: ?b)) with (a + qsum b)%Qc. change (qsum (?a :: ?b)) with (a + qsum b)%Qc. ring.
    - congruence. }
  rewrite E1, (E2 _ _ PM). clear - LS. revert co. induction LS as [|x sp Lx LS IH]; intros [|c co]; try reflexivity. cbn [combine map filter fst coeffSum].
  assert (D : domb l x = vleb l x) by (apply eq_true_iff_eq; rewrite domb_spec, vleb_spec by lia; reflexivity). rewrite D. destruct (vleb l x).
  - cbn [map snd]. change (qsum (?a :: ?b)) with (a + qsum b)%Qc. now rewrite IH, toQc_add.
  - now rewrite IH, Z.add_0_l.
Qed.

(** For the schemes of the library, distributed to the groups in any way, consistent values stay as they are. *)
Theorem C26_scheme_projection : forall v esz lmin lmax s dim rest tasks gs chunk order, let levels := repeat 1 dim :: rest in
  Forall2 Z.le lmin lmax -> lmin <> [] -> Forall (fun x => 1 <= x) lmin -> schemeOf lmin lmax s -> tasksOf s (concat tasks) ->
  sortedLevels dim levels -> Forall (Forall (Z.le 1)) levels -> tasksFit dim tasks -> variantFits v levels tasks ->
  reachable v esz levels tasks gs -> 0 < chunk < 2 ^ 31 -> anyOrder gs order -> consistent levels (allTasks gs) ->
  exists gs', combineStep v esz chunk order levels gs = Some gs' /\
    Forall2 (fun g g' => Forall2 sameValues (gTasks g) (gTasks g')) gs gs'.
Proof.
  intros v esz lmin lmax s dim rest tasks gs chunk order levels F N P HS TO HL HP HT HV HR HC HO CO.
  apply (C26_projection v esz dim rest tasks gs chunk order); auto. fold levels. intros l c Hl Hc HCl.
  pose proof (reachable_levelCoeff v esz dim rest tasks gs HL HP HT HV HR) as LCE. unfold tasksOf in TO. rewrite <- LCE in TO.
  pose proof (reachable_good v esz dim rest tasks gs HL HP HT HV HR) as G.
  assert (IN : In (gLevel (cGrid c), cCoeff c) (combine (sSpaces s) (map toQc (sCoeffs s)))) by (apply (Permutation_in _ TO); change (In (levelCoeff c) (map levelCoeff (allTasks gs))); now apply in_map).
  apply in_combine_l in IN.
  assert (LC : length (sCoeffs s) = length (sSpaces s)).
  { destruct HS as [->|(NE & S)]; [|now apply (C10_classical_partition_of_unity_partial lmin lmax)].
    unfold adaptiveScheme. destruct (adaptiveSpaces_wf lmin lmax F N P) as [W1 W2].
    assert (Hd : (0 < length lmin)%nat) by (destruct lmin; [congruence|cbn; lia]).
    pose proof (adaptiveCoeffs_eq (length lmin) _ Hd (conj W1 W2)) as E. cbv zeta in E. destruct (adaptiveCoeffs (adaptiveSpaces lmin lmax)) as [sp co]. cbn [sSpaces sCoeffs].
    injection E. intros -> ->. now rewrite map_length. }
  rewrite (tasksOf_sum (sSpaces s) (sCoeffs s)); auto.
  - rewrite (schemeOf_unity lmin lmax s (gLevel (cGrid c)) l); auto. eapply Forall2_imp2; [|exact HCl]. cbn. intros; lia.
  - apply Forall_forall. intros x Hx. destruct (In_nth _ _ [] Hx) as (i & Hi & Ei).
    assert (INx : In (x, nth i (map toQc (sCoeffs s)) (toQc 0)) (combine (sSpaces s) (map toQc (sCoeffs s)))).
    { rewrite <- Ei. rewrite <- (combine_nth (sSpaces s) (map toQc (sCoeffs s)) i [] (toQc 0)) by (rewrite map_length; lia). apply nth_In. rewrite combine_length, map_length. lia. }
    apply (Permutation_in _ (Permutation_sym TO)) in INx. apply in_map_iff in INx. destruct INx as (cx & EX & Hcx). injection EX as EX _.
    destruct (G cx Hcx) as (_ & Lcx & _). rewrite <- EX, Lcx. symmetry. pose proof HL as [_ SL]. rewrite Forall_forall in SL. apply SL. exact Hl.
Qed.

(** Buffers of 2^31 elements or more: a subspace that is stored more than 2^31 elements after the first one of its chunk is
    not reached by the subspace reduction (MPI_Type_indexed has int displacements). Here two groups share the subspaces 0
    and 2, and the first one has 2^31 points of subspace 1 between them. *)
Definition bigSizes (r : nat) : list Z := match r with O => [5; 2 ^ 31; 5] | _ => [5; 0; 5] end.
Definition bigDsg (r : nat) : DSG :=
  let d := createSubspaceData 8 {| dSizes := bigSizes r; dWith := []; dPtr := repeat None 3; dLen := 0; dData := zeroA; dKPtr := repeat None 3; dKLen := 0; dKahan := zeroA |} in
  withData d (fun _ => 1%Qc).
Theorem C31_large_buffers_refuted :
  subspaceCommunicators 3 2 bigSizes 0 = [([0; 1]%nat, [0; 2])] /\ subspaceCommunicators 3 2 bigSizes 1 = [([0; 1]%nat, [0; 2])] /\
  map (ptrOf (dPtr (bigDsg 0))) [0; 2] = [0; 2 ^ 31 + 5] /\ map (ptrOf (dPtr (bigDsg 1))) [0; 2] = [0; 5] /\
  option_map (fun ds : nat -> DSG => map (fun k => this (dData (ds 0%nat) k)) [0; 1; 2; 3; 4; 2 ^ 31 + 5; 2 ^ 31 + 6; 2 ^ 31 + 7; 2 ^ 31 + 8; 2 ^ 31 + 9])
    (subspaceReduce 100 [[0; 1]%nat] (subspaceCommunicators 3 2 bigSizes) bigDsg)
  = Some (map inject_Z [2; 2; 2; 2; 2; 1; 1; 1; 1; 1]).
Proof. split; [vm_compute; reflexivity|]. split; [vm_compute; reflexivity|]. split; [vm_compute; reflexivity|]. split; vm_compute; reflexivity. Qed.

(** ** Examples *)

(** The two grids of [C25_ex_hyps], one in each group. *)
Definition exTasks := [[exC1]; [exC2]].
Lemma exC_contains : forall l, containsL exC1 l -> containsL exC2 l -> l = [1; 1].
Proof.
  intros l A B. unfold containsL in *. cbn in A, B. inversion A as [|? x ? ? ? A']; subst. inversion A' as [|? y ? ? ? A'']; subst. inversion A''; subst.
  inversion B as [|? ? ? ? ? B']; subst. inversion B'; subst. f_equal; [lia|f_equal; lia].
Qed.
Example C31_ex_tasksFit : tasksFit 2 exTasks.
Proof.
  destruct C25_ex_hyps as (_ & _ & G & A). split; [exact G|]. split; [exact A|]. intros c l Hc Hl.
  assert (Z.of_nat (length (pointsOf c l)) <= 24); [|lia].
  assert (E : exists x y, l = [x; y] /\ 1 <= x <= 2 /\ 1 <= y <= 2).
  { assert (Hl' : exists p q, p <= 2 /\ q <= 2 /\ Forall2 (fun x y => 1 <= x <= y) l [p; q]).
    { destruct Hc as [<-|[<-|[]]]; [exists 2, 1|exists 1, 2]; (split; [lia|split; [lia|exact Hl]]). }
    destruct Hl' as (p & q & Hp & Hq & F). destruct l as [|x [|y [|z l]]]; inversion F; subst; try (inversion H3; fail).
    - inversion H4.
    - inversion H4; subst. exists x, y. split; [reflexivity|lia].
    - inversion H4; subst. inversion H6. }
  destruct E as (x & y & -> & Hx & Hy). assert (x = 1 \/ x = 2) as [->| ->] by lia; assert (y = 1 \/ y = 2) as [->| ->] by lia; destruct Hc as [<-|[<-|[]]]; vm_compute; discriminate.
Qed.
Example C31_ex_variantFits : forall v, variantFits v exLevels exTasks.
Proof.
  assert (S : zsum (map (cntOf (concat exTasks)) exLevels) < 2 ^ 31) by (vm_compute; reflexivity).
  assert (J : forall r, (r < length exTasks)%nat -> sharesLevel exLevels exTasks r).
  { assert (H1 : holdsLevel exTasks [1; 1] 0) by (exists exC1; split; [now left|split; [repeat constructor; cbn; lia|vm_compute; discriminate]]).
    assert (H2 : holdsLevel exTasks [1; 1] 1) by (exists exC2; split; [now left|split; [repeat constructor; cbn; lia|vm_compute; discriminate]]).
    intros [|[|r]] Hr; [exists [1; 1], 1%nat|exists [1; 1], 0%nat|cbn in Hr; lia]; (split; [now left|split; [lia|split; assumption]]). }
  intros []; cbn [variantFits]; auto; try (split; [|split; [cbn; lia|now left]]); try (split; [|cbn; lia]); auto.
  intros l [<-|[<-|[<-|[]]]]; vm_compute; reflexivity.
Qed.
(** All variants give these values (weighted sums -100, -99, ... at the common points). *)
Definition exAfter (v : CombinationVariant) : option (list (list (list Q))) :=
  match initGroups v 8 exLevels exTasks with
  | None => None
  | Some gs => match combineStep v 8 9 [[0; 1]%nat] exLevels gs with
               | None => None
               | Some gs' => Some (map (fun g => map (fun c => map (fun k => this (cValues c k)) (zrange 0 10)) (gTasks g)) gs')
               end
  end.
Example C31_ex : forall v, exAfter v = Some [[map inject_Z [-100; 1; -99; 3; -98; -101; 6; -100; 8; -99]];
                                             [map inject_Z [-100; -99; -98; -103; -104; -105; -101; -100; -99; -109]]].
Proof. intros []; vm_compute; reflexivity. Qed.
(** Both tasks in one group, and in the other order, give the same values. *)
Example C27_ex :
  match initGroups VSparseGrid 8 exLevels [[]; [exC2; exC1]; []] with
  | None => False
  | Some gs => match combineStep VSparseGrid 8 9 [] exLevels gs with
               | None => False
               | Some gs' => map (fun g => map (fun c => map (fun k => this (cValues c k)) (zrange 0 10)) (gTasks g)) gs'
                             = [[]; [map inject_Z [-100; -99; -98; -103; -104; -105; -101; -100; -99; -109];
                                     map inject_Z [-100; 1; -99; 3; -98; -101; 6; -100; 8; -99]]; []]
               end
  end.
Proof. vm_compute. reflexivity. Qed.

(** The classical scheme with levels (1,1) to (2,2) and the values 4x + 8y. *)
Definition exP11 := exComp [1; 1] (toQc (-1)) (fun k => toQc (2 * (k mod 3) + 4 * (k / 3))) [[[1; 1]]].
Definition exP12 := exComp [1; 2] (toQc 1) (fun k => toQc (2 * (k mod 3) + 2 * (k / 3))) [[[1; 1]; [1; 2]]].
Definition exP21 := exComp [2; 1] (toQc 1) (fun k => toQc (k mod 5 + 4 * (k / 5))) [[[1; 1]; [2; 1]]].
Definition exScheme := [[exP21; exP11]; [exP12]].
Example C26_ex_scheme : schemeOf [1; 1] [2; 2] (classicalScheme [1; 1] [2; 2]) /\ tasksOf (classicalScheme [1; 1] [2; 2]) (concat exScheme).
Proof.
  split; [right; split; [discriminate|now left]|]. unfold tasksOf. change (map levelCoeff (concat exScheme)) with [([2; 1], toQc 1); ([1; 1], toQc (-1)); ([1; 2], toQc 1)].
  change (combine _ _) with [([1; 1], toQc (-1)); ([1; 2], toQc 1); ([2; 1], toQc 1)].
  eapply Permutation_trans; [apply perm_swap|]. constructor. apply perm_swap.
Qed.
Example C26_ex_consistent : consistent exLevels (concat exScheme).
Proof.
  assert (D : forall c c' l j, In c (concat exScheme) -> In c' (concat exScheme) -> In l exLevels -> vleb l (gLevel (cGrid c)) = true -> vleb l (gLevel (cGrid c')) = true ->
              In j (seq 0 (length (pointsOf c l))) -> this (cValues c (nth j (pointsOf c l) 0)) = this (cValues c' (nth j (pointsOf c' l) 0))).
  { assert (B : forallb (fun c => forallb (fun c' => forallb (fun l => if vleb l (gLevel (cGrid c)) && vleb l (gLevel (cGrid c'))
              then forallb (fun j => let a := this (cValues c (nth j (pointsOf c l) 0)) in let b := this (cValues c' (nth j (pointsOf c' l) 0)) in (Qnum a =? Qnum b) && (Pos.eqb (Qden a) (Qden b)))
                     (seq 0 (length (pointsOf c l))) else true) exLevels) (concat exScheme)) (concat exScheme) = true) by (vm_compute; reflexivity).
    rewrite forallb_forall in B. intros c c' l j Hc Hc' Hl V V' Hj. specialize (B c Hc). rewrite forallb_forall in B. specialize (B c' Hc'). rewrite forallb_forall in B.
    specialize (B l Hl). rewrite V, V' in B. cbn [andb] in B. rewrite forallb_forall in B. specialize (B j Hj). cbv zeta in B. apply andb_prop in B. destruct B as [B1 B2].
    apply Z.eqb_eq in B1. apply Pos.eqb_eq in B2. destruct (this (cValues c _)), (this (cValues c' _)). cbn in B1, B2. congruence. }
  intros c c' l j Hc Hc' Hl L L' Hj.
  assert (K : forall c l, containsL c l -> vleb l (gLevel (cGrid c)) = true) by (intros c0 l0 H0; apply vleb_spec; [now apply containsL_length|now apply Forall2_weak]).
  apply Qc_is_canon. rewrite (D c c' l j); auto; [reflexivity|]. apply in_seq. lia.
Qed.
Example C26_ex :
  match initGroups VSubspace 8 exLevels exScheme with
  | None => False
  | Some gs => match combineStep VSubspace 8 7 [[0; 1]%nat] exLevels gs with
               | None => False
               | Some gs' => map (fun g => map (fun c => map (fun k => this (cValues c k)) (zrange 0 6)) (gTasks g)) gs'
                             = [[map inject_Z [0; 1; 2; 3; 4; 4]; map inject_Z [0; 2; 4; 4; 6; 8]]; [map inject_Z [0; 2; 4; 2; 4; 6]]]
               end
  end.
Proof. vm_compute. reflexivity. Qed.

Print Assumptions C31_start.
Print Assumptions C31_combination_step.
Print Assumptions C31_variants_agree.
Print Assumptions C31_large_buffers_refuted.
Print Assumptions C27_assignment_independent.
Print Assumptions C26_projection.
Print Assumptions C26_idempotent.
Print Assumptions C26_scheme_projection.
