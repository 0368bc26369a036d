(** Proofs about MigrateModel.v. *)
From Verif Require Import Base TensorModel TensorProofs PartitionModel PartitionProofs DecompModel DecompProofs DofModel DofProofs Level1dModel
  Level1dProofs LevelSetsModel LevelSetsProofs SubspaceModel SubspaceProofs SubspaceProps CombiSchemeModel CombiSchemeProofs Hier1dModel Hier1dProofs HierMassProofs Hier1dProps
  DistHierModel DistHierProofs DistExchangeProofs DistPoleProofs HierNDModel HierNDProofs HierLinProofs HierNDProps
  SparseGridModel SparseGridProofs CombineModel SparseTransferProofs SparseGridProps ReduceModel ReduceProofs VoteProofs SubspaceReduceProofs
  CombiStepModel CombiStepProofs CombiInitProofs CombiStepProps FileModel FileProps ExchangeModel ExchangeProps
  WideModel WideProofs WideStepProofs WideInitProofs WideProps SystemModel SystemProofs SystemProps WideSystemModel WideSystemProofs MigrateModel.
From Coq Require Import QArith Qcanon Permutation.
Open Scope Z_scope.
Ltac Zify.zify_post_hook ::= idtac.

(** ** One rank of all groups *)
Section Rank.
Variables (dim : nat) (rest : list (list Z)).
Let levels := repeat 1 dim :: rest.
Hypothesis HL : sortedLevels dim levels.
Hypothesis HP : Forall (Forall (Z.le 1)) levels.
Let n := Z.of_nat (length levels).
Let lvl (i : Z) := nth (Z.to_nat i) levels [].
Variable cnt : list Z -> Z.
Hypothesis Hcnt : forall q, 0 <= cnt q < 2 ^ 32.

(** The sparse grid holds the weighted sum of [all]. *)
Definition filledWith (all : list Comp) (d : DSG) : Prop :=
  ready levels d /\ dWith d = zrange 0 n /\
  forall i j, 0 <= i < n -> 0 <= j < dataSize d i -> dData d (off d i + j) = weightedSum all (lvl i) j.

Lemma reduce_all : forall gs ds mc, Forall (groupOk dim rest cnt) gs -> sameSizes gs -> locallyReduced dim rest gs ds -> 0 < mc < 2 ^ 31 ->
  exists ds', sparseGridReduce (length gs) mc ds = Some ds' /\ (forall r, sameShape (ds r) (ds' r) /\ dKahan (ds' r) = dKahan (ds r)) /\
    forall r i j, (r < length gs)%nat -> 0 <= i < n -> 0 <= j < dataSize (ds r) i -> dData (ds' r) (off (ds r) i + j) = weightedSum (allTasks gs) (lvl i) j.
Proof.
  intros gs ds mc G S LR HMC. destruct gs as [|g0 gs0] eqn:EG.
  - destruct (sparseGridReduce_spec 0 mc ds 0 HMC ltac:(lia)) as (ds' & E & A & B); [intros q Hq; lia|]. exists ds'. split; auto. split; auto. intros r i j Hr. cbn in Hr. lia.
  - rewrite <- EG in *. assert (E0 : nth_error gs 0 = Some g0) by now rewrite EG.
    set (len := zsum (dSizes (gDsg g0))).
    assert (T : 0 <= len < 2 ^ 31).
    { rewrite Forall_forall in G. destruct (G g0 (nth_error_In _ _ E0)) as (_ & (I & _ & _ & _ & T) & _). split; [|exact T].
      destruct I as (_ & I & _). unfold len. clear - I. induction (dSizes (gDsg g0)) as [|x l IH]; [apply Z.le_refl|]. pose proof (Forall_inv I) as X. cbv beta in X. specialize (IH (Forall_inv_tail I)). change (zsum (x :: l)) with (x + zsum l). lia. }
    assert (HLen : forall r, (r < length gs)%nat -> dLen (ds r) = len).
    { intros r Hr. destruct (nth_error_lt gs r Hr) as (g & Eg). destruct (LR r g Eg) as (_ & _ & _ & L & _). rewrite L. unfold len. f_equal. now apply (S r O). }
    destruct (sparseGridReduce_spec (length gs) mc ds len HMC ltac:(lia) HLen) as (ds' & E & A & B).
    exists ds'. split; auto. split; auto. intros r i j Hr Hi Hj. destruct (nth_error_lt gs r Hr) as (g & Eg).
    destruct (LR r g Eg) as (R & DS & DW & L & V).
    assert (SO : forall r' g', nth_error gs r' = Some g' -> off (ds r') i = off (ds r) i /\ dataSize (ds r') i = dataSize (ds r) i).
    { intros r' g' Eg'. destruct (LR r' g' Eg') as (_ & DS' & DW' & _ & _). unfold off, dataSize. rewrite DW, DW', DS, DS'. rewrite (S r' r g' g) by auto. auto. }
    assert (IW : In i (dWith (ds r))) by (rewrite DW; now apply zrange_In).
    pose proof (off_bound levels (ds r) i R IW Hi) as OB. destruct (ready_ptr levels (ds r) R i Hi) as (_ & _ & P0).
    rewrite B by (auto; rewrite <- (HLen r Hr); lia). unfold weightedSum. rewrite <- sum_groups. apply qsum_ext. intros r' Hr'. apply in_seq in Hr'.
    destruct (nth_error_lt gs r' ltac:(lia)) as (g' & Eg'). destruct (LR r' g' Eg') as (_ & _ & _ & _ & V'). destruct (SO r' g' Eg') as [O1 O2].
    rewrite <- O1. rewrite V' by (auto; lia). unfold tasksAt. rewrite Eg'. reflexivity.
Qed.

(** A combination step with sparseGridReduce: the tasks as in [step_spec], and what the sparse grids hold afterwards. *)
Lemma step_all : forall gs esz mc order, Forall (groupOk dim rest cnt) gs -> 0 < mc < 2 ^ 31 -> sameSizes gs ->
  exists gs', reduceAndDistribute VSparseGrid esz mc order levels gs = Some gs' /\
    Forall2 (fun g g' => stepped (weightedSum (allTasks gs)) (fun l => In l levels) g g' /\ dsgOk dim rest (gDsg g') /\ filledWith (allTasks gs) (gDsg g')) gs gs'.
Proof.
  intros gs esz mc order G HMC HV. unfold reduceAndDistribute.
  destruct (mapO_spec (fun g d => ready levels d /\ dSizes d = dSizes (gDsg g) /\ dWith d = zrange 0 n /\ dLen d = zsum (dSizes (gDsg g)) /\
    forall i j, 0 <= i < n -> 0 <= j < dataSize d i -> dData d (off d i + j) = weightedSum (gTasks g) (lvl i) j)
    (fun g => addAll true levels (gTasks g) (zeroDsgData esz (gDsg g))) gs) as (ds & E & F).
  { intros g Hg. rewrite Forall_forall in G. destruct (G g Hg) as (T & D & S). destruct (zero_spec dim rest cnt Hcnt esz (gDsg g) D) as (R & ES & EW & ED & EL).
    destruct (addAll_local dim rest HL HP cnt true (gTasks g) (zeroDsgData esz (gDsg g)) R ED T) as (d' & E & Sh & K & V).
    - now apply (sizesOk_sizes dim rest cnt _ (gDsg g)).
    - intros _ i Hi. rewrite EW. now apply zrange_In.
    - exists d'. split; auto. pose proof Sh as (S1 & S2 & _ & S4 & _). split; [now apply (ready_same levels _ d' R)|]. split; [congruence|]. split; [rewrite S2; exact EW|].
      split; [congruence|]. intros i j Hi Hj. unfold off, dataSize in *. rewrite S1, S2 in *. apply V; auto. rewrite EW. now apply zrange_In. }
  rewrite E.
  assert (LR : locallyReduced dim rest gs (dsgAt ds)).
  { intros r g Eg. destruct (Forall2_nth_error _ _ _ _ _ F Eg) as (d & Ed & H). unfold dsgAt. rewrite (nth_error_nth ds r (initDSG 0) Ed). exact H. }
  destruct (reduce_all gs (dsgAt ds) mc G HV LR HMC) as (ds' & E' & RS & RV). rewrite E'. unfold distributeAll.
  destruct (mapO_spec (fun rg g' => stepped (weightedSum (allTasks gs)) (fun l => In l levels) (snd rg) g' /\ dsgOk dim rest (gDsg g') /\ filledWith (allTasks gs) (gDsg g'))
    (fun rg : nat * Group => distribute true levels (ds' (fst rg)) (snd rg)) (combine (seq 0 (length gs)) gs)) as (gs' & E2 & F2).
  { intros [r g] H. apply combine_seq_In in H. destruct H as (k & -> & Eg). cbn [Nat.add fst snd]. rewrite Forall_forall in G.
    destruct (G g (nth_error_In _ _ Eg)) as (T & D & S). destruct (LR k g Eg) as (R & ES & EW & EL & V). destruct (RS k) as [Sh EK].
    assert (R' : ready levels (ds' k)). { apply (ready_same levels (dsgAt ds k)); auto. intros x Hx. rewrite EK. destruct R as (_ & _ & _ & _ & K). now apply K. }
    pose proof Sh as (S1 & S2 & _ & S4 & _).
    assert (FW : filledWith (allTasks gs) (ds' k)).
    { split; auto. split; [rewrite S2; exact EW|]. intros i j Hi Hj. unfold off, dataSize in *. rewrite S1, S2 in *. apply RV; auto. apply nth_error_Some. congruence. }
    destruct (distribute_spec dim rest HL cnt Hcnt true (ds' k) g (weightedSum (allTasks gs)) R' T) as (ts & E3 & F3).
    - apply (sizesOk_sizes dim rest cnt _ (gDsg g)); auto. congruence.
    - intros _ i Hi. rewrite S2, EW. now apply zrange_In.
    - intros i j c Hi Hw Hj Hc Hl. destruct FW as (_ & _ & FW). now apply FW.
    - exists {| gTasks := ts; gDsg := ds' k; gComms := gComms g |}. split; auto.
      assert (F4 : Forall2 (updated (weightedSum (allTasks gs)) (fun l => In l levels)) (gTasks g) ts).
      { eapply Forall2_imp2; [|exact F3]. intros c c' U. apply (updated_ext _ _ _ _ _) with (2 := U). intros l _ _. cbv beta. split; [tauto|].
        intros Hl. split; auto. rewrite S2, EW. apply zrange_In. now apply position_In. }
      split; [split; [exact F4|]; cbn [gDsg gComms]; split; [congruence|reflexivity]|]. cbn [gDsg]. split; auto.
      apply ready_dsgOk; auto; [congruence|]. rewrite S1, ES. apply D. }
  rewrite E2. exists gs'. split; auto. apply (Forall2_combine_seq _ _ _ _ _ F2). intros r g b H. exact H.
Qed.

(** A new Kahan buffer changes nothing that matters. *)
Lemma createKahan_ready : forall esz d, ready levels d -> dWith d = zrange 0 n ->
  let d' := createKahanBuffer esz d in ready levels d' /\ dSizes d' = dSizes d /\ dWith d' = dWith d /\ dData d' = dData d /\ dPtr d' = dPtr d.
Proof.
  intros esz d R W. pose proof R as (I & LD & LK & LL & K).
  assert (C : chosen d = dWith d).
  { unfold chosen. rewrite W. unfold numSubspaces. destruct I as (-> & _). fold n. destruct (zrange 0 n); auto. }
  cbv zeta. unfold createKahanBuffer. rewrite C. cbn [dSizes dWith dData dPtr]. split; [|auto].
  split; [|split; [|split; [|split]]]; cbn [dSizes dWith dData dPtr dLen dKPtr dKLen]; auto.
  - pose proof (createKahan_inv (length levels) esz d (dsgInv_data _ _ I)) as I'. unfold createKahanBuffer in I'. rewrite C in I'. exact I'.
  - split; reflexivity.
  - intros k Hk. cbn [dKahan]. destruct (_ <=? _); auto. unfold resizeZero. destruct (_ <? _); auto.
Qed.

Lemma createKahan_filled : forall esz d all, filledWith all d -> filledWith all (createKahanBuffer esz d).
Proof.
  intros esz d all (R & W & V). destruct (createKahan_ready esz d R W) as (R' & E1 & E2 & E3 & E4). split; auto. split; [congruence|].
  intros i j Hi Hj. unfold off, dataSize in *. rewrite E1, E2, E3 in *. now apply V.
Qed.

(** Extraction never meets a null pointer if there is a buffer. *)
Lemma extractChecked_eq : forall d c v0, ready levels d -> goodComp dim c ->
  extractChecked levels (cThreads c) d (cGrid c) v0 = extractDFG true levels (cThreads c) d (cGrid c) v0.
Proof.
  intros d c v0 R G. unfold extractChecked, extractDFG. rewrite !(forLevels_comp dim rest HL) by auto.
  generalize (concat (cThreads c)) v0. clear v0. induction l as [|q qs IH]; intros v0; auto. cbn [fold_left].
  assert (X : extractCheckedBody d (cGrid c) (position levels q) q (Some v0) = Some (extractBody true d (cGrid c) (position levels q) q v0)); [|unfold levels in X; rewrite X; apply IH].
  unfold extractCheckedBody. destruct (shouldBeCopied true d (position levels q)) eqn:E; [|unfold extractBody; now rewrite E].
  unfold shouldBeCopied in E. apply andb_true_iff in E. destruct E as [E _]. apply andb_true_iff in E. destruct E as [E1 E2]. apply Z.gtb_lt in E1.
  assert (IN : In q levels). { destruct (in_dec (list_eq_dec Z.eq_dec) q levels) as [X|X]; auto. rewrite (position_notIn levels q X) in E1. lia. }
  destruct (position_In levels q IN) as [P1 _]. pose proof R as ((L1 & L2 & L3 & _) & LD & _ & LL & _). rewrite <- L1 in L3.
  destruct (laidOut_spec _ _ _ _ L2 L3 LD LL) as (P & _). rewrite P by (rewrite L1; exact P1). reflexivity.
Qed.
End Rank.

(** The common sizes after the start: those of the subspaces of all tasks. *)
Lemma init_all : forall esz dim rest tasks, let levels := repeat 1 dim :: rest in
  sortedLevels dim levels -> Forall (Forall (Z.le 1)) levels -> tasksFit dim tasks -> zsum (map (cntOf (concat tasks)) levels) < 2 ^ 31 ->
  exists gs, initGroups VSparseGrid esz levels tasks = Some gs /\ map gTasks gs = tasks /\
    Forall (fun g => dsgOk dim rest (gDsg g) /\ dSizes (gDsg g) = map (cntOf (concat tasks)) levels) gs.
Proof.
  intros esz dim rest tasks levels HL HP HT HS. set (cnt := cntOf (concat tasks)). pose proof (cnt_range dim tasks HT) as Hcnt. fold cnt in Hcnt.
  pose proof (tasks_ok dim tasks HT) as TO. fold cnt in TO.
  destruct (init_dsgs dim rest HL cnt Hcnt esz tasks TO true) as (ds & E & F). cbv iota in F. unfold initGroups. fold levels in E. rewrite E. eexists. split; [reflexivity|].
  set (D := dsgAt (map (createKahanBuffer esz) ds)) in *. set (n := Z.of_nat (length levels)).
  set (dsg := fun r => overwriteSizesAndDelete (map (maxSize (length tasks) (fun r => dSizes (D r))) (zrange 0 n)) (D r)).
  change (map _ (seq 0 (length tasks))) with (map (fun r => {| gTasks := nth r tasks []; gDsg := dsg r; gComms := [] |}) (seq 0 (length tasks))).
  split; [apply (gs_all tasks dsg (fun _ => []))|].
  assert (ME : map (maxSize (length tasks) (fun r => dSizes (D r))) (zrange 0 n) = map cnt levels).
  { pose proof (map_lvl dim rest tasks levels) as ML. fold cnt n in ML. rewrite <- ML. clear ML. apply map_ext_in. intros i Hi. apply zrange_In in Hi.
    destruct (existsb (fun c => vleb (nth (Z.to_nat i) levels []) (gLevel (cGrid c))) (concat tasks)) eqn:EX.
    - apply existsb_exists in EX. destruct EX as (c & Hc & V). apply in_concat in Hc. destruct Hc as (cs & Hcs & Hc). destruct (In_nth _ _ [] Hcs) as (r & Hr & Er).
      apply (max_held dim rest HL HP cnt Hcnt tasks TO D F i r); auto. exists c. rewrite Er. split; auto. pose proof TO as TO'. rewrite Forall_forall in TO'. destruct (TO' cs Hcs) as [G _]. rewrite Forall_forall in G.
      apply (lvl_contains dim rest HL HP c i); auto.
    - assert (Z0 : cnt (nth (Z.to_nat i) levels []) = 0).
      { unfold cnt, cntOf. destruct (find _ _) as [c|] eqn:FD; auto. apply find_some in FD. destruct FD as [Hc X]. destruct (in_dec _ _ _) as [X1|]; [|discriminate]. apply downSet_contains in X1.
        assert (Y : existsb (fun c => vleb (nth (Z.to_nat i) levels []) (gLevel (cGrid c))) (concat tasks) = true); [|congruence].
        apply existsb_exists. exists c. split; auto. destruct HT as (G & _). rewrite Forall_forall in G. apply (lvl_contains dim rest HL HP c i); auto. }
      destruct (max_value dim rest cnt Hcnt tasks D F i Hi) as [->|X]; [now rewrite Z0|exact X]. }
  assert (SF : sizesFit dim rest cnt (map cnt levels)).
  { split; [apply map_length|]. intros i Hi. right. rewrite (nth_indep _ 0 (cnt [])) by (rewrite map_length; fold levels in Hi; lia). now rewrite map_nth. }
  assert (FR : forall r, (r < length tasks)%nat -> fresh dim rest (map cnt levels) (dsg r)).
  { intros r Hr. destruct (F r Hr) as (I & C & _). unfold dsg. rewrite ME. apply overwrite_fresh; auto; [apply SF|]. apply (sizesFit_range dim rest cnt Hcnt [] _ _ SF); [lia|]. intros i Hi. apply Hcnt. }
  apply (gs_Forall dim rest cnt Hcnt esz tasks dsg (fun _ => [])). intros r Hr. cbn [gDsg]. split; [apply (fresh_dsgOk dim rest (map cnt levels)); auto|]. apply (FR r Hr).
Qed.

(** ** The whole system *)

(** The coefficients of the sparse grid at the points of a grid: as [combinedAt], but zero outside the sparse grid. *)
Definition combinedOrZero (y : Setup) (all : list SysTask) (H : SysTask -> list Z -> Qc) (L w : list Z) : Qc :=
  let l := levelOf y L w in
  if in_dec (list_eq_dec Z.eq_dec) l (yLevels y)
  then qsum (map (fun u => if vleb l (sLevel u) then sCoeff u * H u (sameIndex y L (sLevel u) w) else 0)%Qc all)
  else 0%Qc.

Lemma combinedOrZero_ext : forall y all all' (H H' : SysTask -> list Z -> Qc) t, wfSetup y -> wfTask y t -> Forall (wfTask y) all ->
  Forall2 (fun u u' => sLevel u' = sLevel u /\ sCoeff u' = sCoeff u /\ forall w, isPoint y u w -> H' u' w = H u w) all all' ->
  forall w, isPoint y t w -> combinedOrZero y all' H' (sLevel t) w = combinedOrZero y all H (sLevel t) w.
Proof.
  intros y all all' H H' t HY HT HA F w Hw. unfold combinedOrZero. cbv zeta. destruct (in_dec _ _ _) as [I|I]; [|auto]. clear I.
  induction F as [|u u' us us' (A & B & C) F IH]; auto. inversion HA; subst. cbn [map]. change (qsum (?a :: ?b)) with (a + qsum b)%Qc.
  rewrite IH by auto. f_equal. rewrite A, B. destruct (vleb (levelOf y (sLevel t) w) (sLevel u)) eqn:E; auto. f_equal. apply C.
  now apply (sameIndex_point y t u w).
Qed.

Definition kind (t : SysTask) : SysTask := withData t (fun _ => zeroA).

Lemma sameKind_kind : forall t t', sameKind t t' -> kind t' = kind t.
Proof. intros t t' [d ->]. reflexivity. Qed.
Lemma kind_sameKind : forall t t', kind t' = kind t -> sameKind t t'.
Proof. intros [L c th d] [L' c' th' d'] E. unfold kind, withData in E. cbn in E. injection E as -> -> ->. exists d'. reflexivity. Qed.
Lemma sameTasks_kinds : forall a b, sameTasks a b -> map kind (concat b) = map kind (concat a).
Proof. intros a b F. apply Forall2_concat' in F. induction F as [|t t' l l' K F IH]; auto. cbn [map]. rewrite IH. f_equal. now apply sameKind_kind. Qed.
Lemma kinds_In : forall a b t, Permutation (map kind a) (map kind b) -> In t b -> exists t0, In t0 a /\ sameKind t0 t.
Proof.
  intros a b t P Ht. apply (in_map kind) in Ht. apply (Permutation_in _ (Permutation_sym P)) in Ht. apply in_map_iff in Ht. destruct Ht as (t0 & E & H0).
  exists t0. split; auto. now apply kind_sameKind.
Qed.
Lemma kinds_wf : forall y a b, Permutation (map kind a) (map kind b) -> Forall (wfTask y) a -> Forall (wfTask y) b.
Proof.
  intros y a b P H. rewrite Forall_forall in *. intros t Ht. destruct (kinds_In a b t P Ht) as (t0 & H0 & K). apply (sameKind_wf y t0); auto.
Qed.

Section Fill.
Variables (y : Setup) (rest : list (list Z)) (tasks : list (list SysTask)).
Hypothesis HY : wfSetup y.
Hypothesis EL : yLevels y = repeat 1 (length (yRef y)) :: rest.
Hypothesis HT : Forall (wfTask y) (concat tasks).
Let cnt (r : Z) := cntOf (map (localTask y r) (concat tasks)).

Lemma cnt_local : forall r, 0 <= r < zprod (yProcs y) -> forall q, 0 <= cnt r q < 2 ^ 32.
Proof. intros r Hr q. unfold cnt. rewrite concat_map. apply (cnt_range (length (yRef y))). now apply local_tasksFit. Qed.

(** The size of a subspace is its number of points in any grid, or no task contains it. *)
Lemma cnt_points : forall r t l, 0 <= r < zprod (yProcs y) -> wfTask y t -> containsL (localTask y r t) l -> 0 < cnt r l ->
  Z.of_nat (length (pointsOf (localTask y r t) l)) = cnt r l.
Proof.
  intros r t l Hr WT C P. unfold cnt, cntOf in P |- *. destruct (find _ _) as [c|] eqn:FD; [|lia]. apply find_some in FD. destruct FD as [Hc X]. destruct (in_dec _ _ _) as [X1|]; [|discriminate].
  apply downSet_contains in X1. apply in_map_iff in Hc. destruct Hc as (u & <- & Hu). rewrite Forall_forall in HT.
  pose proof (same_refPos y HY r Hr t u l WT (HT u Hu) C X1) as E. apply (f_equal (@length _)) in E. rewrite !map_length in E. now rewrite E.
Qed.

Lemma cnt_held : forall r u l, 0 <= r < zprod (yProcs y) -> In u (concat tasks) -> containsL (localTask y r u) l ->
  Z.of_nat (length (pointsOf (localTask y r u) l)) = cnt r l.
Proof.
  intros r u l Hr Hu C. pose proof (local_tasksFit y tasks r HY Hr HT) as (_ & A & _). rewrite <- concat_map in A. unfold cnt. apply cntOf_spec; auto. now apply in_map.
Qed.

(** Filling a grid from sparse grids that hold the weighted sum of the tasks [all]. *)
Lemma fill_ok : forall all (ds : Z -> DSG) stale t, wfTask y t -> Permutation (map kind (concat tasks)) (map kind all) ->
  (forall r, 0 <= r < zprod (yProcs y) -> filledWith (length (yRef y)) rest (map (localTask y r) all) (ds r) /\ dSizes (ds r) = map (cnt r) (yLevels y)) ->
  exists t', fillGrid y stale ds t = Some t' /\ sameKind t t' /\
    represents (taskCfg y (sLevel t)) (nodal y (sLevel t) (combinedOrZero y all (valueAt y) (sLevel t))) (sData t').
Proof.
  intros all ds stale t WT PM HD. pose proof HY as (_ & _ & _ & _ & _ & _ & HL & HP). pose proof (kinds_wf y _ _ PM HT) as WA. pose proof (proj1 (Forall_forall _ _) WA) as WA'.
  set (dim := length (yRef y)) in *.
  assert (X : forall r, 0 <= r < zprod (yProcs y) -> exists v, extractChecked (yLevels y) (sThreads t r) (ds r) (cGrid (localTask y r t)) zeroA = Some v /\
    forall l j, containsL (localTask y r t) l -> (j < length (pointsOf (localTask y r t) l))%nat ->
      v (nth j (pointsOf (localTask y r t) l) 0) = combinedOrZero y all (valueAt y) (sLevel t) (pointIndex y r t l j)).
  { intros r Hr. destruct (HD r Hr) as ((R & W & V) & S). set (c := localTask y r t). pose proof (local_good y HY r Hr t WT) as G. fold c dim in G.
    rewrite EL in *. change (sThreads t r) with (cThreads c). rewrite (extractChecked_eq dim rest HL (cnt r) (cnt_local r Hr) (ds r) c zeroA R G).
    assert (SZ : forall i, 0 <= i < Z.of_nat (length (repeat 1 dim :: rest)) -> dataSize (ds r) i = cnt r (nth (Z.to_nat i) (repeat 1 dim :: rest) [])).
    { intros i Hi. unfold dataSize. rewrite S. rewrite (nth_indep _ 0 (cnt r [])) by (rewrite map_length; lia). now rewrite map_nth. }
    destruct (extract_spec dim rest HL true (ds r) c zeroA R G) as (v & E & A & B).
    - intros _ i Hi. rewrite W. now apply zrange_In.
    - intros i Hi C P _. rewrite SZ in P |- * by auto. cbv beta in *. unfold c. apply cnt_points; auto.
    - exists v. split; auto. intros l j C Hj. unfold combinedOrZero. cbv zeta. rewrite (pointIndex_level y HY r Hr t l j WT C Hj). rewrite EL.
      destruct (in_dec (list_eq_dec Z.eq_dec) l (repeat 1 dim :: rest)) as [I|I].
      2: { apply (B l); auto. now apply nth_In. }
      destruct (position_In _ _ I) as [PI PL]. set (i := position (repeat 1 dim :: rest) l) in *. cbv beta in PL.
      transitivity (weightedSum (map (localTask y r) all) l (Z.of_nat j)).
      2: { unfold weightedSum. rewrite map_map. apply qsum_ext. intros u Hu. apply (contribution_eq y HY r Hr); auto. apply C19_state_is_grid_function. apply taskCfg_wf; auto. }
      destruct (Z.eq_dec (cnt r l) 0) as [Z0|Z0].
      + rewrite (B l); auto; [|now apply nth_In|right; right; fold i; rewrite SZ by auto; now rewrite PL].
        symmetry. rewrite <- PL. apply (notContained_zero dim rest HL HP); auto.
        * apply Forall_forall. intros x Hx. apply in_map_iff in Hx. destruct Hx as (u & <- & Hu). apply local_good; auto.
        * intros x Hx Cx. rewrite PL in Cx. apply in_map_iff in Hx. destruct Hx as (u & <- & Hu). destruct (kinds_In _ _ u PM Hu) as (u0 & Hu0 & [du ->]).
          change (containsL (localTask y r u0) l) in Cx. pose proof (cnt_held r u0 l Hr Hu0 Cx) as CH.
          pose proof (same_refPos y HY r Hr t u0 l WT (proj1 (Forall_forall _ _) HT u0 Hu0) C Cx) as EQ. apply (f_equal (@length _)) in EQ. rewrite !map_length in EQ. unfold c in Hj. lia.
      + pose proof (cnt_local r Hr l). rewrite <- (Nat2Z.id j) at 1. rewrite <- PL at 1. rewrite <- PL in C, Hj |- *.
        assert (Hj' : 0 <= Z.of_nat j < dataSize (ds r) i). { rewrite SZ by auto. rewrite <- (cnt_points r t _ Hr WT C); [unfold c in Hj; lia|]. rewrite PL. lia. }
        rewrite A; [|exact PI|exact C|rewrite W; now apply zrange_In|exact Hj']. apply V; auto. }
  unfold fillGrid. destruct (mapO_total (fun r => extractChecked (yLevels y) (sThreads t r) (ds r) (cGrid (localTask y r t)) zeroA) (zrange 0 (zprod (yProcs y)))) as [vs E].
  { intros r Hr. apply zrange_In in Hr. destruct (X r Hr) as (v & -> & _). eauto. }
  rewrite E. set (t0 := withData t (fun r => nth (Z.to_nat r) vs zeroA)).
  assert (RP : represents (taskCfg y (sLevel t)) (combinedOrZero y all (valueAt y) (sLevel t)) (sData t0)).
  { intros r v Hr Hv. cbn [taskCfg hProcs] in Hr. destruct (X r Hr) as (w & Ew & Vw). pose proof (ranks_nth _ _ _ zeroA _ E Hr) as Er. cbv beta in Er. rewrite Ew in Er. injection Er as Er.
    cbn [t0 withData sData]. rewrite <- Er. pose proof (local_good y HY r Hr t WT) as G. pose proof (localSizes_pos _ (taskCfg_wf y t HY WT) r Hr) as PE.
    set (k := sequentialIndex (hLocalSizes (taskCfg y (sLevel t)) r) v).
    assert (EK : k = lin (hLocalSizes (taskCfg y (sLevel t)) r) v) by (unfold k; now apply sequentialIndex_lin).
    assert (Hk : 0 <= k < zprod (gSizes (cGrid (localTask y r t)))).
    { rewrite EK. change (gSizes (cGrid (localTask y r t))) with (hLocalSizes (taskCfg y (sLevel t)) r). now apply lin_range. }
    destruct (points_cover _ _ k G Hk) as (l & j & C & Hj & EJ). rewrite <- EJ. rewrite (Vw l j C Hj). f_equal. unfold pointIndex. rewrite EJ. f_equal.
    rewrite getVectorIndex_unlin by (auto; exact Hk). rewrite EK. now apply unlin_lin. }
  destruct (sweepTask_spec y true stale t0 _ HY WT RP) as (t' & E' & K & RP'). exists t'. split; [exact E'|]. split; [|exact RP']. apply (sameKind_trans t t0); [eexists; reflexivity|exact K].
Qed.
End Fill.

(** ** Lists *)

Lemma modAt_length : forall {A} k (f : A -> A) l, length (modAt k f l) = length l.
Proof. intros A k f l. revert k. induction l as [|a l IH]; intros [|k]; cbn [modAt length]; auto. Qed.
Lemma modAt_nth : forall {A} k (f : A -> A) l j, nth_error (modAt k f l) j = if (j =? k)%nat then option_map f (nth_error l j) else nth_error l j.
Proof.
  intros A k f l. revert k. induction l as [|a l IH]; intros [|k] [|j]; cbn [modAt nth_error Nat.eqb option_map]; auto.
  - now destruct (j =? k)%nat.
Qed.
Lemma modAt_Forall : forall {A} (P : A -> Prop) k f l, Forall P l -> (forall a, P a -> P (f a)) -> Forall P (modAt k f l).
Proof. intros A P k f l F H. revert k. induction F as [|a l Ha F IH]; intros [|k]; cbn [modAt]; constructor; auto. Qed.
Lemma concat_add : forall {A} b (t : A) l, (b < length l)%nat -> Permutation (t :: concat l) (concat (modAt b (fun ts => ts ++ [t]) l)).
Proof.
  intros A b t l. revert b. induction l as [|x l IH]; intros [|b] H; cbn [length] in H; try lia; cbn [modAt concat].
  - rewrite <- app_assoc. cbn [app]. apply Permutation_middle.
  - eapply Permutation_trans; [apply Permutation_middle|]. apply Permutation_app_head. apply IH. lia.
Qed.
Lemma concat_remove : forall {A} a k (t : A) l ts, nth_error l a = Some ts -> nth_error ts k = Some t ->
  Permutation (t :: concat (modAt a (fun ts => firstn k ts ++ skipn (S k) ts) l)) (concat l).
Proof.
  intros A a k t l. revert a. induction l as [|x l IH]; intros [|a] ts E K; try discriminate; cbn [nth_error modAt concat] in *.
  - injection E as ->. apply (Permutation_trans (l' := (t :: firstn k ts ++ skipn (S k) ts) ++ concat l)); [apply Permutation_refl|]. apply Permutation_app_tail.
    assert (X : ts = firstn k ts ++ t :: skipn (S k) ts).
    { clear - K. revert k K. induction ts as [|u ts IH]; intros [|k] K; try discriminate; cbn [nth_error firstn skipn app] in *; [now injection K as ->|]. f_equal. now apply IH. }
    rewrite X at 3. apply Permutation_middle.
  - eapply Permutation_trans; [apply Permutation_middle|]. apply Permutation_app_head. apply (IH a ts); auto.
Qed.

(** The states that can be reached by computing, combining and rescheduling; the first argument are the tasks at the last
    combination. *)
Inductive mReachable (y : Setup) (esz : Z) (tasks : list (list SysTask)) : option (list SysTask) -> System -> Prop :=
| m_start : forall S, startSystem y VSparseGrid esz tasks = Some S -> mReachable y esz tasks None S
| m_solve : forall o S tasks', mReachable y esz tasks o S -> sameTasks (sTasks S) tasks' ->
    mReachable y esz tasks o {| sTasks := tasks'; sDsgs := sDsgs S |}
| m_combine : forall o S S' chunk order staleH staleD, mReachable y esz tasks o S -> 0 < chunk < 2 ^ 31 ->
    combineSystem y VSparseGrid esz chunk order staleH staleD S = Some S' -> mReachable y esz tasks (Some (concat (sTasks S))) S'
| m_move : forall all S S' a k b stale, mReachable y esz tasks (Some all) S -> moveTask y esz stale a k b S = Some S' -> mReachable y esz tasks (Some all) S'.

Section Inv.
Variables (y : Setup) (esz : Z) (rest : list (list Z)) (tasks : list (list SysTask)).
Hypothesis HY : wfSetup y.
Hypothesis EL : yLevels y = repeat 1 (length (yRef y)) :: rest.
Hypothesis HT : Forall (wfTask y) (concat tasks).
Hypothesis HV : forall r, 0 <= r < zprod (yProcs y) -> zsum (map (cntOf (map (localTask y r) (concat tasks))) (yLevels y)) < 2 ^ 31.
Let cnt (r : Z) := cntOf (map (localTask y r) (concat tasks)).
Let dim := length (yRef y).

(** What the sparse grids hold after the last combination of the tasks [all]. *)
Definition holds (all : list SysTask) (S : System) : Prop :=
  Permutation (map kind (concat tasks)) (map kind all) /\
  exists ts1, Forall2 (fun t t1 => sameKind t t1 /\ represents (taskCfg y (sLevel t)) (surplus y (sLevel t) (valueAt y t)) (sData t1)) all ts1 /\
    forall r, 0 <= r < zprod (yProcs y) -> Forall (fun p => filledWith dim rest (map (localTask y r) ts1) (fst p)) (sDsgs S r).

Definition mInv (o : option (list SysTask)) (S : System) : Prop :=
  Permutation (map kind (concat tasks)) (map kind (concat (sTasks S))) /\
  length (sTasks S) = length tasks /\
  (forall r, 0 <= r < zprod (yProcs y) -> length (sDsgs S r) = length (sTasks S) /\
     Forall (fun p => dsgOk dim rest (fst p) /\ dSizes (fst p) = map (cnt r) (yLevels y)) (sDsgs S r)) /\
  match o with None => True | Some all => holds all S end.

Lemma mInv_wf : forall o S, mInv o S -> Forall (wfTask y) (concat (sTasks S)).
Proof. intros o S (P & _). now apply (kinds_wf y _ _ P). Qed.

Lemma mStart : exists S, startSystem y VSparseGrid esz tasks = Some S /\ sTasks S = tasks.
Proof.
  pose proof HY as (_ & _ & _ & _ & _ & _ & HL & HP). destruct (mapO_total (fun r => initGroups VSparseGrid esz (yLevels y) (map (map (localTask y r)) tasks)) (zrange 0 (zprod (yProcs y)))) as [gss E].
  { intros r Hr. apply zrange_In in Hr. pose proof (local_tasksFit y tasks r HY Hr HT) as TF. pose proof (HV r Hr) as V. rewrite concat_map in V. rewrite EL in *.
    destruct (init_all esz _ rest _ HL HP TF V) as (gs & E & _). eauto. }
  unfold startSystem. rewrite E. eauto.
Qed.

Lemma start_inv : forall S, startSystem y VSparseGrid esz tasks = Some S -> mInv None S.
Proof.
  intros S E. assert (ET : sTasks S = tasks) by (destruct mStart as (S0 & E0 & ET); congruence). pose proof HY as (_ & _ & _ & _ & _ & _ & HL & HP). split; [rewrite ET; apply Permutation_refl|]. split; [now rewrite ET|]. split; [|exact I].
  intros r Hr. unfold startSystem in E. destruct (mapO _ _) as [gss|] eqn:EM; [|discriminate]. injection E as <-. cbn [sTasks sDsgs].
  pose proof (ranks_nth _ _ _ [] _ EM Hr) as Er. cbv beta in Er. pose proof (local_tasksFit y tasks r HY Hr HT) as TF. pose proof (HV r Hr) as V. rewrite concat_map in V. rewrite EL in *.
  destruct (init_all esz _ rest _ HL HP TF V) as (gs & E & M & F). rewrite Er in E. injection E as E. unfold gatherDsgs. rewrite E. split.
  - rewrite map_length. rewrite <- (map_length gTasks gs), M, map_length. reflexivity.
  - apply Forall_forall. intros p Hp. apply in_map_iff in Hp. destruct Hp as (g & <- & Hg). rewrite Forall_forall in F. cbn [fst]. unfold cnt. rewrite concat_map. apply (F g Hg).
Qed.

Lemma solve_inv : forall o S tasks', mInv o S -> sameTasks (sTasks S) tasks' -> mInv o {| sTasks := tasks'; sDsgs := sDsgs S |}.
Proof.
  intros o S tasks' (A & A' & B & C) K. pose proof (Forall2_length _ _ _ _ _ K) as LE. split; [|split; [|split]]; cbn [sTasks sDsgs].
  - rewrite (sameTasks_kinds _ _ K). exact A.
  - lia.
  - intros r Hr. destruct (B r Hr). split; [lia|auto].
  - destruct o; exact C.
Qed.

Lemma move_inv : forall all S a k b stale ts t, mInv (Some all) S -> nth_error (sTasks S) a = Some ts -> nth_error ts k = Some t -> (b < length (sTasks S))%nat ->
  exists S' t', moveTask y esz stale a k b S = Some S' /\ mInv (Some all) S' /\
    sTasks S' = modAt b (fun ts => ts ++ [t']) (modAt a (fun ts => firstn k ts ++ skipn (Datatypes.S k) ts) (sTasks S)) /\
    sameKind t t' /\ represents (taskCfg y (sLevel t)) (nodal y (sLevel t) (combinedOrZero y all (fun u => surplus y (sLevel u) (valueAt y u)) (sLevel t))) (sData t').
Proof.
  intros all S a k b stale ts t I Ea Ek Hb. pose proof (mInv_wf _ _ I) as WS. pose proof I as (A & A' & B & (PA & ts1 & F1 & FW)).
  assert (WT : wfTask y t). { rewrite Forall_forall in WS. apply WS. apply in_concat. exists ts. split; eapply nth_error_In; eauto. }
  assert (P1 : Permutation (map kind (concat tasks)) (map kind ts1)).
  { replace (map kind ts1) with (map kind all); auto. clear - F1. induction F1 as [|u u' l l' [K _] F IH]; auto. cbn [map]. rewrite <- IH. f_equal. symmetry. now apply sameKind_kind. }
  set (Sd := fun r => modAt b (fun p => (createKahanBuffer esz (fst p), snd p)) (sDsgs S r)).
  assert (NEW : forall r, 0 <= r < zprod (yProcs y) -> Forall (fun p => (dsgOk dim rest (fst p) /\ dSizes (fst p) = map (cnt r) (yLevels y)) /\ filledWith dim rest (map (localTask y r) ts1) (fst p)) (Sd r)).
  { intros r Hr. destruct (B r Hr) as [_ B2]. specialize (FW r Hr). unfold Sd. apply modAt_Forall.
    - apply Forall_forall. intros p Hp. rewrite Forall_forall in B2, FW. auto.
    - intros p ((D1 & D2) & D3). cbn [fst]. pose proof (cnt_local y tasks HY HT r Hr) as Hcnt. pose proof D3 as (R & W & _).
      destruct (createKahan_ready dim rest esz (fst p) R W) as (R' & E1 & E2 & E3 & E4). split; [split|].
      + apply ready_dsgOk; auto; [rewrite E2; exact W|]. rewrite E1. apply D1.
      + now rewrite E1.
      + now apply createKahan_filled. }
  unfold moveTask. rewrite Ea, Ek. destruct (Nat.ltb_spec b (length (sTasks S))); [|lia]. unfold addTask. cbn [removeTask sTasks sDsgs]. fold Sd.
  set (S1 := {| sTasks := _; sDsgs := Sd |}).
  destruct (fill_ok y rest tasks HY EL HT ts1 (dsgOf S1 b) stale (withData t (fun _ => zeroA))) as (t' & E & K & RP); auto.
  { intros r Hr. specialize (NEW r Hr). unfold dsgOf. cbn [S1 sDsgs]. assert (L : (b < length (Sd r))%nat) by (unfold Sd; rewrite modAt_length; destruct (B r Hr); lia).
    destruct (nth_error (Sd r) b) as [p|] eqn:Ep; [|apply nth_error_None in Ep; lia]. rewrite Forall_forall in NEW. destruct (NEW p (nth_error_In _ _ Ep)) as ((_ & X) & Y). split; auto. }
  rewrite E. exists {| sTasks := modAt b (fun ts => ts ++ [t']) (modAt a (fun ts => firstn k ts ++ skipn (Datatypes.S k) ts) (sTasks S)); sDsgs := Sd |}, t'. split; [reflexivity|].
  assert (K' : sameKind t t'). { destruct K as [d ->]. exists d. reflexivity. }
  split; [|split; [reflexivity|split; [exact K'|]]].
  - split; [|split; [|split]]; cbn [sTasks sDsgs].
    + eapply Permutation_trans; [exact A|]. eapply Permutation_trans; [apply Permutation_map, Permutation_sym, (concat_remove a k t (sTasks S) ts Ea Ek)|].
      eapply Permutation_trans; [|apply Permutation_map, concat_add; rewrite modAt_length; exact Hb]. cbn [map]. rewrite (sameKind_kind t t' K'). apply Permutation_refl.
    + now rewrite !modAt_length.
    + intros r Hr. rewrite !modAt_length. destruct (B r Hr) as [B1 _]. unfold Sd at 1. rewrite modAt_length. split; auto. eapply Forall_impl; [|exact (NEW r Hr)]. cbn. tauto.
    + split; auto. exists ts1. split; auto. intros r Hr. cbn [sDsgs]. eapply Forall_impl; [|exact (NEW r Hr)]. cbn. tauto.
  - assert (WA : Forall (wfTask y) all) by now apply (kinds_wf y _ _ PA).
    change (sLevel (withData t (fun _ => zeroA))) with (sLevel t) in RP. intros r v Hr Hv. rewrite (RP r v Hr Hv). unfold nodal. apply surplus_ext; auto.
    + intros w Hw. apply (combinedOrZero_ext y all ts1); auto. clear - F1 WA HY. induction F1 as [|u u' l l' [[d ->] RU] F IH]; constructor; inversion WA; subst; auto.
      split; [reflexivity|]. split; [reflexivity|]. intros w Hw. apply (represents_box (taskCfg y (sLevel u)) _ _ (taskCfg_wf y u HY H1) RU w). exact Hw.
    + exact (local_inside (taskCfg y (sLevel t)) r v (taskCfg_wf y t HY WT) Hr Hv).
Qed.
Lemma rank_ok : forall o S r, mInv o S -> 0 <= r < zprod (yProcs y) -> Forall (groupOk dim rest (cnt r)) (localGroups y S r) /\ sameSizes (localGroups y S r).
Proof.
  intros o S r I Hr. pose proof (mInv_wf _ _ I) as WS. pose proof I as (A & A' & B & _). destruct (B r Hr) as [BL BF]. rewrite Forall_forall in BF, WS.
  assert (SZ : forall g, In g (localGroups y S r) -> dSizes (gDsg g) = map (cnt r) (yLevels y)).
  { intros g Hg. unfold localGroups in Hg. apply in_map_iff in Hg. destruct Hg as ([ts p] & <- & H). apply in_combine_r in H. cbn [fst snd gDsg]. apply (BF p H). }
  split.
  - apply Forall_forall. intros g Hg. pose proof (SZ g Hg) as ES. unfold localGroups in Hg. apply in_map_iff in Hg. destruct Hg as ([ts p] & <- & H). cbn [fst snd gDsg gTasks gComms] in *.
    assert (IN : forall t, In t ts -> In t (concat (sTasks S))). { intros t Ht. apply in_concat. exists ts. split; auto. now apply in_combine_l in H. }
    split; [|split]; cbn [gTasks gDsg].
    + split.
      * apply Forall_forall. intros c Hc. apply in_map_iff in Hc. destruct Hc as (t & <- & Ht). apply local_good; auto.
      * intros c l Hc Hl. apply in_map_iff in Hc. destruct Hc as (t & <- & Ht). destruct (kinds_In _ _ t A (IN t Ht)) as (t0 & H0 & [d ->]).
        exact (cnt_held y tasks HY HT r t0 l Hr H0 Hl).
    + apply (BF p). now apply in_combine_r in H.
    + intros c i Hc Hi Hl. unfold dataSize. rewrite ES, EL. rewrite (nth_indep _ 0 (cnt r [])) by (rewrite map_length; unfold dim in Hi; lia). now rewrite map_nth.
  - intros q q' g g' Eg Eg'. rewrite !SZ; auto; eapply nth_error_In; eauto.
Qed.

(** One combination. *)
Lemma combine_inv : forall o S chunk order staleH staleD, mInv o S -> 0 < chunk < 2 ^ 31 ->
  exists S', combineSystem y VSparseGrid esz chunk order staleH staleD S = Some S' /\ mInv (Some (concat (sTasks S))) S' /\ sameTasks (sTasks S) (sTasks S') /\
    Forall2 (combinedSys y (concat (sTasks S))) (concat (sTasks S)) (concat (sTasks S')).
Proof.
  intros o S chunk order staleH staleD I HC. pose proof HY as (_ & _ & _ & _ & _ & _ & HL & HP).
  pose proof (mInv_wf _ _ I) as WS. pose proof (proj1 (Forall_forall _ _) WS) as WS'. pose proof I as (A & A' & B & _).
  destruct (sweepTasks_spec y false staleH (sTasks S) (valueAt y) HY WS) as (ts1 & E1 & F1).
  { intros t Ht. apply C19_state_is_grid_function. apply taskCfg_wf; auto. }
  assert (F1' : Forall2 (Forall2 (fun t t' => sameKind t t' /\ represents (taskCfg y (sLevel t)) (opAll (taskCfg y (sLevel t)) false (dims y) (valueAt y t)) (sData t'))) (sTasks S) ts1).
  { eapply Forall2_imp2; [|exact F1]. intros a b F. eapply Forall2_imp2; [|exact F]. tauto. }
  pose proof (sameTasks_of _ _ _ F1') as K1. unfold combineSystem. rewrite E1. cbv zeta.
  set (S1 := {| sTasks := ts1; sDsgs := sDsgs S |}).
  pose proof (solve_inv o S ts1 I K1) as I1. fold S1 in I1. pose proof (mInv_wf _ _ I1) as W1. change (sTasks S1) with ts1 in W1. pose proof (proj1 (Forall_forall _ _) W1) as W1'.
  assert (ST : forall r, 0 <= r < zprod (yProcs y) -> exists gs', combineStep VSparseGrid esz chunk (order r) (yLevels y) (localGroups y S1 r) = Some gs' /\
     Forall (fun g' => dsgOk dim rest (gDsg g') /\ dSizes (gDsg g') = map (cnt r) (yLevels y) /\ filledWith dim rest (map (localTask y r) (concat ts1)) (gDsg g')) gs' /\
     Forall2 (fun ts g' => Forall2 (fun t c' => combinedTask (yLevels y) (map (localTask y r) (concat ts1)) (localTask y r t) c') ts (gTasks g')) ts1 gs').
  { intros r Hr. destruct (rank_ok o S1 r I1 Hr) as [G SS]. pose proof I1 as (_ & _ & B1 & _). destruct (B1 r Hr) as [BL BF].
    assert (SZ : forall g, In g (localGroups y S1 r) -> dSizes (gDsg g) = map (cnt r) (yLevels y)).
    { intros g Hg. unfold localGroups in Hg. apply in_map_iff in Hg. destruct Hg as ([ts p] & <- & H). apply in_combine_r in H. cbn [fst snd gDsg]. rewrite Forall_forall in BF. apply (BF p H). }
    pose proof (cnt_local y tasks HY HT r Hr) as Hcnt. cbn [combineStep]. rewrite EL in HL, HP. 
    destruct (step_all (length (yRef y)) rest HL HP (cnt r) Hcnt (localGroups y S1 r) esz chunk (order r) G HC SS) as (gs' & E & F).
    exists gs'. split; [rewrite EL; exact E|]. rewrite allTasks_local in F by auto. change (sTasks S1) with ts1 in F.
    split.
    - apply Forall_forall. intros g' Hg'. destruct (Forall2_In_r _ _ _ _ F Hg') as (g & Hg & (_ & DS & _) & D & FW). split; auto. split; auto. rewrite DS. auto.
    - assert (MT : map gTasks (localGroups y S1 r) = map (map (localTask y r)) ts1) by (now apply localGroups_tasks).
      rewrite EL. revert F MT. generalize (localGroups y S1 r). generalize (map (localTask y r) (concat ts1)). generalize ts1. clear. intros ts1 all gs F. revert ts1. induction F as [|g g' gs gs' H F IH]; intros [|ts ts1] MT; try discriminate; constructor.
      + cbn [map] in MT. injection MT as MT _. destruct H as ((H & _) & _). rewrite MT in H. clear - H. revert H. generalize (gTasks g'). induction ts as [|t ts IH]; intros l H; inversion H; subst; constructor; auto. now apply steppedTask_combined.
      + cbn [map] in MT. injection MT as _ MT. auto. }
  destruct (mapO_total (fun r => combineStep VSparseGrid esz chunk (order r) (yLevels y) (localGroups y S1 r)) (zrange 0 (zprod (yProcs y)))) as [gss E2].
  { intros r Hr. apply zrange_In in Hr. destruct (ST r Hr) as (gs' & -> & _). eauto. }
  rewrite E2.
  assert (STr : forall r, 0 <= r < zprod (yProcs y) ->
     Forall (fun g' => dsgOk dim rest (gDsg g') /\ dSizes (gDsg g') = map (cnt r) (yLevels y) /\ filledWith dim rest (map (localTask y r) (concat ts1)) (gDsg g')) (nth (Z.to_nat r) gss []) /\
     Forall2 (fun ts g' => Forall2 (fun t c' => combinedTask (yLevels y) (map (localTask y r) (concat ts1)) (localTask y r t) c') ts (gTasks g')) ts1 (nth (Z.to_nat r) gss [])).
  { intros r Hr. pose proof (ranks_nth _ _ _ [] _ E2 Hr) as Er. cbv beta in Er. destruct (ST r Hr) as (gs' & E & R1 & F2). rewrite Er in E. injection E as ->. auto. }
  set (ts2 := gatherTasks ts1 gss). pose proof (gather_same ts1 gss) as K2. fold ts2 in K2.
  pose proof (sameTasks_wf y _ _ K2 W1) as W2. pose proof (proj1 (Forall_forall _ _) W2) as W2'.
  pose proof (gather_spec (fun r t c' => combinedTask (yLevels y) (map (localTask y r) (concat ts1)) (localTask y r t) c') ts1 gss (zprod (yProcs y)) (fun r Hr => proj2 (STr r Hr))) as F2. fold ts2 in F2.
  destruct (sweepTasks_spec y true staleD ts2 (valueAt y) HY W2) as (ts3 & E3 & F3).
  { intros t Ht. apply C19_state_is_grid_function. apply taskCfg_wf; auto. }
  assert (F3' : Forall2 (Forall2 (fun t t' => sameKind t t' /\ represents (taskCfg y (sLevel t)) (opAll (taskCfg y (sLevel t)) true (dims y) (valueAt y t)) (sData t'))) ts2 ts3).
  { eapply Forall2_imp2; [|exact F3]. intros a b F. eapply Forall2_imp2; [|exact F]. tauto. }
  pose proof (sameTasks_of _ _ _ F3') as K3. rewrite E3. eexists. split; [reflexivity|]. cbn [sTasks].
  pose proof (sameTasks_trans _ _ _ K1 (sameTasks_trans _ _ _ K2 K3)) as K.
  split; [|split; [exact K|]].
  - pose proof (Forall2_length _ _ _ _ _ K) as LE. split; [|split; [|split]]; cbn [sTasks sDsgs].
    + rewrite (sameTasks_kinds _ _ K). exact A.
    + lia.
    + intros r Hr. destruct (STr r Hr) as [D F]. unfold gatherDsgs. apply Forall2_length in F. apply Forall2_length in K1. split; [rewrite map_length; lia|].
      apply Forall_forall. intros p Hp. apply in_map_iff in Hp. destruct Hp as (g & <- & Hg). rewrite Forall_forall in D. destruct (D g Hg) as (D1 & D2 & _). cbn [fst]. auto.
    + split; [exact A|]. exists (concat ts1). split; [exact (Forall2_concat' _ _ _ F1')|]. intros r Hr. destruct (STr r Hr) as [D _]. cbn [sDsgs]. unfold gatherDsgs.
      apply Forall_forall. intros p Hp. apply in_map_iff in Hp. destruct Hp as (g & <- & Hg). rewrite Forall_forall in D. apply (D g Hg).
  - exact (steps_combined y (sTasks S) ts1 ts2 ts3 HY WS F1' F2 F3').
Qed.

Lemma mReachable_inv : forall o S, mReachable y esz tasks o S -> mInv o S.
Proof.
  intros o S R. induction R as [S E|o S tasks' R IH ST|o S S' chunk order sH sD R IH HC E|all S S' a k b stale R IH E].
  - now apply start_inv.
  - now apply solve_inv.
  - destruct (combine_inv o S chunk order sH sD IH HC) as (S0 & E0 & I & _). congruence.
  - pose proof E as E'. unfold moveTask in E'. destruct (nth_error (sTasks S) a) as [ts|] eqn:Ea; [|discriminate]. destruct (nth_error ts k) as [t|] eqn:Ek; [|discriminate].
    destruct (Nat.ltb_spec b (length (sTasks S))); [|discriminate]. destruct (move_inv all S a k b stale ts t IH Ea Ek H) as (S0 & t' & E0 & I & _). congruence.
Qed.
End Inv.
