(** The agreement of several systems on the sizes of the subspaces. *)
From Verif Require Import Base TensorModel Level1dModel LevelSetsModel LevelSetsProofs SubspaceModel CombiSchemeModel Hier1dModel Hier1dProofs HierMassProofs
  DofProofs SparseGridModel SparseGridProofs CombineModel SparseTransferProofs SparseGridProps ReduceModel ReduceProofs VoteProofs SubspaceReduceProofs
  CombiStepModel CombiStepProofs CombiInitProofs FileModel FileProps ExchangeModel ExchangeProps WideModel WideProofs WideStepProofs.
From Coq Require Import QArith Qcanon Permutation.
Open Scope Z_scope.
Ltac Zify.zify_post_hook ::= idtac.

(** ** Setting many sizes *)
Lemma zrange_last : forall k, 0 <= k -> zrange 0 (k + 1) = zrange 0 k ++ [k].
Proof. intros k Hk. rewrite zrange_snoc by lia. now replace (k + 1 - 1) with k by lia. Qed.
Lemma foldSet : forall (f : Z -> Z -> Z) N, (forall x i, 0 <= x < 2 ^ 32 -> 0 <= i < Z.of_nat N -> 0 <= f x i < 2 ^ 32) -> forall k d, (k <= N)%nat -> dsgInv N d ->
  let d' := fold_left (fun d i => setDataSize i (f (dataSize d i) i) d) (zrange 0 (Z.of_nat k)) d in
  dsgInv N d' /\ dWith d' = dWith d /\ forall i, 0 <= i < Z.of_nat N -> dataSize d' i = if i <? Z.of_nat k then f (dataSize d i) i else dataSize d i.
Proof.
  intros f N Hf. induction k as [|k IH]; intros d Hk I.
  - cbv zeta. cbn. split; auto. split; auto. intros i Hi. destruct (Z.ltb_spec i 0); [lia|auto].
  - rewrite Nat2Z.inj_succ. change (Z.succ (Z.of_nat k)) with (Z.of_nat k + 1). rewrite zrange_last by lia. rewrite fold_left_app. cbn [fold_left]. destruct (IH d ltac:(lia) I) as (I1 & W1 & V1). cbv zeta in *.
    set (d1 := fold_left _ (zrange 0 (Z.of_nat k)) d) in *. clearbody d1.
    assert (R : 0 <= f (dataSize d1 (Z.of_nat k)) (Z.of_nat k) < 2 ^ 32) by (apply Hf; [apply (dataSize_range N); auto|lia]).
    split; [now apply setSize_inv|]. split; [rewrite setSize_with; exact W1|]. intros i Hi.
    assert (L1 : length (dSizes d1) = N) by apply I1.
    assert (DS : dataSize (setDataSize (Z.of_nat k) (f (dataSize d1 (Z.of_nat k)) (Z.of_nat k)) d1) i = if i =? Z.of_nat k then f (dataSize d1 (Z.of_nat k)) (Z.of_nat k) else dataSize d1 i).
    { unfold setDataSize at 1. unfold dataSize at 1. cbn [withSizes dSizes]. destruct (Z.eqb_spec i (Z.of_nat k)) as [->|NE]; [apply nth_upd_same; lia|]. rewrite nth_upd_other by lia. reflexivity. }
    rewrite DS. destruct (Z.eqb_spec i (Z.of_nat k)) as [->|NE].
    + rewrite V1 by lia. destruct (Z.ltb_spec (Z.of_nat k) (Z.of_nat k)); [lia|]. destruct (Z.ltb_spec (Z.of_nat k) (Z.of_nat k + 1)); [auto|lia].
    + rewrite V1 by lia. destruct (Z.ltb_spec i (Z.of_nat k)), (Z.ltb_spec i (Z.of_nat k + 1)); auto; lia.
Qed.
Lemma maxSize_same : forall R sizes i v, (forall r, (r < R)%nat -> nth (Z.to_nat i) (sizes r) 0 = v) -> (1 <= R)%nat -> 0 <= v -> maxSize R sizes i = v.
Proof.
  intros R sizes i v H HR Hv. unfold maxSize. assert (G : forall k m, (k <= R)%nat -> (m = 0 \/ m = v) -> fold_left (fun m r => Z.max m (nth (Z.to_nat i) (sizes r) 0)) (seq 0 k) m = if Nat.eqb k 0 then m else v).
  { induction k as [|k IH]; intros m Hk Hm; [reflexivity|]. rewrite seq_S, fold_left_app. cbn [fold_left Nat.add]. rewrite IH by (auto; lia). rewrite H by lia. destruct k; cbn; lia. }
  rewrite G by (auto; lia). destruct R; [lia|reflexivity].
Qed.
Lemma maxSize_one : forall R sizes i out v, (out < R)%nat -> nth (Z.to_nat i) (sizes out) 0 = v -> (forall r, (r < R)%nat -> nth (Z.to_nat i) (sizes r) 0 <= v) -> 0 <= v -> maxSize R sizes i = v.
Proof.
  intros R sizes i out v HO HV H Hv. unfold maxSize.
  assert (G : forall k m, (k <= R)%nat -> 0 <= m <= v -> let x := fold_left (fun m r => Z.max m (nth (Z.to_nat i) (sizes r) 0)) (seq 0 k) m in m <= x <= v /\ ((out < k)%nat -> x = v)).
  { induction k as [|k IH]; intros m Hk Hm; cbv zeta; [cbn; split; lia|]. rewrite seq_S, fold_left_app. cbn [fold_left Nat.add]. destruct (IH m ltac:(lia) Hm) as [A B]. cbv zeta in *.
    set (x := fold_left _ (seq 0 k) m) in *. clearbody x. pose proof (H k ltac:(lia)). split; [lia|]. intros Ho. destruct (Nat.eq_dec out k) as [->|N]; [lia|]. rewrite B by lia. lia. }
  destruct (G R 0 (le_n _) ltac:(lia)) as [_ B]. cbv zeta in B. now apply B.
Qed.

(** A system holds points of a subspace on a process. *)
Definition heldIn (l : list Z) (cs : list Comp) : bool := existsb (fun c => vleb l (gLevel (cGrid c))) cs.

Section One.
Variables (dim : nat) (rest : list (list Z)).
Let levels := repeat 1 dim :: rest.
Hypothesis HL : sortedLevels dim levels.
Hypothesis HP : Forall (Forall (Z.le 1)) levels.
Let n := Z.of_nat (length levels).
Let lvl (i : Z) := nth (Z.to_nat i) levels [].
Variable cnt : list Z -> Z.
Hypothesis Hcnt : forall q, 0 <= cnt q < 2 ^ 32.
Hypothesis Hsum : zsum (map cnt levels) < 2 ^ 31 - 1.
Variables (esz : Z) (out : nat) (tasks : list (list Comp)).
Hypothesis HT : Forall (tasksOk dim cnt) tasks.
Hypothesis HO : (out < length tasks)%nat.

Definition systemSizes (cs : list Comp) : list Z := map (fun l => if heldIn l cs then cnt l else 0) levels.
Let ms := systemSizes (concat tasks).

Lemma mapL_nth : forall (f : list Z -> Z) i, 0 <= i < n -> nth (Z.to_nat i) (map f levels) 0 = f (lvl i).
Proof. intros f i Hi. rewrite (nth_indep _ 0 (f [])) by (rewrite map_length; unfold n in Hi; lia). apply map_nth. Qed.
Lemma lvl_sum : zsum (map (fun i => cnt (lvl i)) (zrange 0 n)) = zsum (map cnt levels).
Proof. rewrite <- (nth_zrange_sum (map cnt levels)). rewrite map_length. f_equal. apply map_ext_in. intros i Hi. apply zrange_In in Hi. now rewrite mapL_nth. Qed.

Definition dinv (s : list Z) (d : DSG) : Prop := dsgInv (length levels) d /\ chosen d = zrange 0 n /\ dSizes d = s.
Notation fit := (sizesFit dim rest cnt).
Notation fr := (fresh dim rest).

Lemma fresh_dinv : forall s d, fr s d -> dinv s d.
Proof. intros s d (I & S & _ & _ & _ & C). split; auto. Qed.
Lemma dinv_over : forall s s' d, dinv s d -> fit s' -> fr s' (overwriteSizesAndDelete s' d).
Proof. intros s s' d (I & C & _) F. apply (overwrite_fresh dim rest); auto; [apply F|]. apply (sizesFit_range dim rest cnt Hcnt [] s'); auto; [lia|]. intros i _. apply Hcnt. Qed.
Lemma dinv_delete : forall s d, dinv s d -> fr s (deleteSubspaceData d).
Proof. intros s d (I & C & <-). now apply (delete_fresh dim rest). Qed.
Lemma fit_sum : forall s, fit s -> zsum s < 2 ^ 31 - 1.
Proof. intros s F. pose proof (sizesFit_sum dim rest cnt Hcnt [] s F) as X. fold levels n in X. fold lvl in X. rewrite lvl_sum in X. lia. Qed.
Lemma full_dinv : forall s d, full dim rest s d -> dinv s d.
Proof. intros s d (R & W & S). destruct R as (I & _). split; auto. split; auto. unfold chosen. rewrite W. unfold numSubspaces. destruct I as (-> & _). fold levels. fold n. destruct (zrange 0 n) eqn:E; auto. Qed.
Lemma fresh_zero : forall s d, fr s d -> fit s -> full dim rest s (zeroDsgData esz d).
Proof.
  intros s d F FS. pose proof (fit_sum s FS). destruct (zeroed_full dim rest cnt Hcnt esz d) as [Z0 _]; [apply (fresh_dsgOk dim rest s); auto; lia|].
  destruct F as (_ & S & _). now rewrite S in Z0.
Qed.
Lemma full_zero : forall s d, full dim rest s d -> fit s -> full dim rest s (zeroDsgData esz d).
Proof.
  intros s d F FS. pose proof (fit_sum s FS). destruct (zeroed_full dim rest cnt Hcnt esz d) as [Z0 _]; [apply (full_dsgOk dim rest s); auto; lia|]. destruct F as (_ & _ & S). now rewrite S in Z0.
Qed.

Lemma ms_fit : forall cs, fit (systemSizes cs).
Proof. intros cs. split; [unfold systemSizes; now rewrite map_length|]. intros i Hi. fold levels in Hi. fold n in Hi. unfold systemSizes. rewrite mapL_nth by auto. destruct (heldIn _ _); auto. Qed.
Lemma fit_ext : forall s s', fit s -> fit s' -> (forall i, 0 <= i < n -> nth (Z.to_nat i) s 0 = nth (Z.to_nat i) s' 0) -> s = s'.
Proof.
  intros s s' [L _] [L' _] H. apply nth_ext with (d := 0) (d' := 0); [congruence|]. intros k Hk. specialize (H (Z.of_nat k)). rewrite Nat2Z.id in H. apply H. unfold n, levels. lia.
Qed.
Lemma sizes_ext : forall s s', length s = length levels -> length s' = length levels -> (forall i, 0 <= i < n -> nth (Z.to_nat i) s 0 = nth (Z.to_nat i) s' 0) -> s = s'.
Proof.
  intros s s' L L' H. apply nth_ext with (d := 0) (d' := 0); [congruence|]. intros k Hk. specialize (H (Z.of_nat k)). rewrite Nat2Z.id in H. apply H. unfold n, levels. rewrite L in Hk. fold levels. lia.
Qed.
Lemma maxMap_nth : forall R sizes i, 0 <= i < n -> nth (Z.to_nat i) (map (maxSize R sizes) (zrange 0 n)) 0 = maxSize R sizes i.
Proof.
  intros R sizes i Hi. rewrite (nth_indep _ 0 (maxSize R sizes 0)) by (rewrite map_length, zrange_length; lia). rewrite map_nth. f_equal. unfold zrange. rewrite zseq_nth by lia. lia.
Qed.
Lemma maxMap_length : forall R sizes, length (map (maxSize R sizes) (zrange 0 n)) = length levels.
Proof. intros. rewrite map_length, zrange_length. unfold n. lia. Qed.

Lemma init_exact : exists gs, initGroups VSparseGrid esz levels tasks = Some gs /\ map gTasks gs = tasks /\ forall g, In g gs -> fr ms (gDsg g).
Proof.
  destruct (init_dsgs dim rest HL cnt Hcnt esz tasks HT true) as (ds & E & F). unfold initGroups. fold levels in E. rewrite E. eexists. split; [reflexivity|].
  set (D := dsgAt (map (createKahanBuffer esz) ds)) in *. fold n.
  set (dsg := fun r => overwriteSizesAndDelete (map (maxSize (length tasks) (fun r => dSizes (D r))) (zrange 0 n)) (D r)).
  change (map _ (seq 0 (length tasks))) with (map (fun r => {| gTasks := nth r tasks []; gDsg := dsg r; gComms := [] |}) (seq 0 (length tasks))).
  split; [rewrite map_map; cbn [gTasks]; apply nth_seq_map|].
  assert (ME : map (maxSize (length tasks) (fun r => dSizes (D r))) (zrange 0 n) = ms).
  { apply sizes_ext; [apply maxMap_length|apply (ms_fit (concat tasks))|]. intros i Hi. rewrite maxMap_nth by auto. unfold ms, systemSizes. rewrite mapL_nth by auto. unfold heldIn.
    destruct (existsb (fun c => vleb (lvl i) (gLevel (cGrid c))) (concat tasks)) eqn:EX.
    - apply existsb_exists in EX. destruct EX as (c & Hc & V). apply in_concat in Hc. destruct Hc as (cs & Hcs & Hc). apply (In_nth _ _ []) in Hcs. destruct Hcs as (r & Hr & Er).
      apply (max_held dim rest HL HP cnt Hcnt tasks HT D F i r Hi). exists c. rewrite Er. split; auto. apply (lvl_contains dim rest HL HP c i); auto.
      rewrite Forall_forall in HT. destruct (HT cs) as [G _]; [rewrite <- Er; now apply nth_In|]. rewrite Forall_forall in G. now apply G.
    - apply maxSize_same; [|lia|lia]. intros r Hr. destruct (F r Hr) as (_ & _ & _ & _ & Z0). apply Z0; auto. intros (c & Hc & Hl).
      assert (X : existsb (fun c => vleb (lvl i) (gLevel (cGrid c))) (concat tasks) = true); [|congruence]. apply existsb_exists. exists c. split; [apply in_concat; exists (nth r tasks []); split; auto; now apply nth_In|].
      apply (lvl_contains dim rest HL HP c i); auto. rewrite Forall_forall in HT. destruct (HT (nth r tasks [])) as [G _]; [now apply nth_In|]. rewrite Forall_forall in G. now apply G. }
  intros g Hg. apply in_map_iff in Hg. destruct Hg as (r & <- & Hr). apply in_seq in Hr. cbn [gDsg]. unfold dsg. rewrite ME. destruct (F r ltac:(lia)) as (I & C & _).
  apply (dinv_over (dSizes (D r))); [split; auto|apply ms_fit].
Qed.

Lemma newExtra_spec : forall s, fit s -> dinv s (newExtra esz (length levels) s).
Proof.
  intros s FS. assert (RG : Forall (fun x => 0 <= x < 2 ^ 32) s) by (apply (sizesFit_range dim rest cnt Hcnt [] s); auto; [lia|]; intros i _; apply Hcnt).
  set (d0 := createKahanBuffer esz (initDSG (length levels))).
  assert (I0 : dsgInv (length levels) d0) by (apply createKahan_inv, dsgInv_data, init_inv).
  assert (W0 : dWith d0 = zrange 0 n) by (unfold d0; cbn [createKahanBuffer dWith]; unfold chosen, numSubspaces, initDSG; cbn [dWith dSizes]; now rewrite repeat_length).
  destruct (foldSet (fun _ i => nth (Z.to_nat i) s 0) (length levels)) with (k := length levels) (d := d0) as (I & W & V); auto.
  { intros _ i _ _. now apply nth_u32. }
  unfold newExtra. fold d0. set (d := fold_left _ _ d0) in *. clearbody d. split; auto. split.
  - unfold chosen, numSubspaces. rewrite W, W0. destruct I as (-> & _). fold n. destruct (zrange 0 n); auto.
  - apply sizes_ext; [apply I|apply FS|]. intros i Hi. change (nth (Z.to_nat i) (dSizes d) 0) with (dataSize d i). rewrite V by (unfold n in Hi; lia). destruct (Z.ltb_spec i (Z.of_nat (length levels))); [auto|unfold n in Hi; lia].
Qed.

Lemma mapDsgs_tasks : forall f gs, map gTasks (mapDsgs f gs) = map gTasks gs.
Proof.
  intros f gs. apply nth_ext with (d := []) (d' := []); [now rewrite !map_length, mapDsgs_length|]. intros k Hk. rewrite map_length, mapDsgs_length in Hk. destruct (nth_error_lt gs k Hk) as (g & E).
  rewrite !(nth_error_nth (map gTasks _) k (x := gTasks g)); auto; rewrite nth_error_map'; [now rewrite E|]. rewrite mapDsgs_nth, E. reflexivity.
Qed.
Lemma mapDsgs_In : forall f gs g, In g (mapDsgs f gs) -> exists r g0, nth_error gs r = Some g0 /\ In g0 gs /\ g = withDsg g0 (f r (gDsg g0)).
Proof.
  intros f gs g H. apply In_nth_error in H. destruct H as (r & E). rewrite mapDsgs_nth in E. destruct (nth_error gs r) as [g0|] eqn:E0; [|discriminate]. injection E as <-. exists r, g0. split; auto. split; auto. now apply nth_error_In in E0.
Qed.
Lemma tasks_length : forall gs, map gTasks gs = tasks -> length gs = length tasks.
Proof. intros gs <-. now rewrite map_length. Qed.

(** All sparse grids of the process have the sizes [s]. *)
Definition sized (s : list Z) (pr : Proc) : Prop :=
  map gTasks (pGroups pr) = tasks /\ (forall g, In g (pGroups pr) -> dinv s (gDsg g)) /\ dinv s (pExtra pr).

Lemma maxReduce_sized : forall s pr, sized s pr -> fit s -> sized s (maxReduceInOutputGroup (length levels) out pr) /\ fr s (pExtra (maxReduceInOutputGroup (length levels) out pr)).
Proof.
  intros s pr (T & G & X) FS. pose proof (tasks_length _ T) as LG.
  assert (ME : map (maxSize (length (pGroups pr)) (fun r => if Nat.eqb r out then dSizes (pExtra pr) else dSizes (groupDsg (pGroups pr) r))) (zrange 0 n) = s).
  { apply sizes_ext; [apply maxMap_length|apply FS|]. intros i Hi. rewrite maxMap_nth by auto. pose proof (Hcnt (lvl i)). apply maxSize_same; [|lia|destruct FS as [_ FS]; destruct (FS i Hi) as [->| ->]; [lia|apply Hcnt]].
    intros r Hr. destruct (Nat.eqb r out); [destruct X as (_ & _ & ->); auto|]. destruct (nth_error_lt _ r Hr) as (g & E). rewrite (groupDsg_nth _ _ _ E). destruct (G g (nth_error_In _ _ E)) as (_ & _ & ->). auto. }
  unfold maxReduceInOutputGroup. fold n. cbv zeta. rewrite ME. cbn [pExtra pGroups]. assert (FX : fr s (overwriteSizesAndDelete s (pExtra pr))) by (now apply (dinv_over s)).
  split; auto. split; [cbn [pGroups]; now rewrite mapDsgs_tasks|]. cbn [pGroups pExtra]. split; [|now apply fresh_dinv].
  intros g Hg. apply mapDsgs_In in Hg. destruct Hg as (r & g0 & _ & Hg0 & ->). cbn [withDsg gDsg]. destruct (Nat.eqb r out); [now apply G|]. apply fresh_dinv, dinv_delete. now apply G.
Qed.

Lemma startProc_spec : exists pr, startProc esz levels out tasks = Some pr /\ sized ms pr.
Proof.
  unfold startProc. destruct init_exact as (gs & -> & T & G). eexists. split; [reflexivity|]. apply (maxReduce_sized ms); [|apply ms_fit]. pose proof (tasks_length _ T) as LG.
  split; auto. cbn [pGroups pExtra]. split; [intros g Hg; apply fresh_dinv; now apply G|]. destruct (nth_error_lt gs out ltac:(lia)) as (go & Eo). rewrite (groupDsg_nth gs out go Eo).
  destruct (G go (nth_error_In _ _ Eo)) as (_ & S & _). rewrite S. apply newExtra_spec. apply ms_fit.
Qed.

Lemma maxReduceSizes_spec : forall s s' d, dinv s d -> fit s -> fit s' -> fr (map2 Z.max s s') (maxReduceSubspaceSizes s' d) /\ fit (map2 Z.max s s').
Proof.
  intros s s' d (I & C & S) FS FS'. assert (RG : Forall (fun x => 0 <= x < 2 ^ 32) s') by (apply (sizesFit_range dim rest cnt Hcnt [] s'); auto; [lia|]; intros i _; apply Hcnt).
  assert (LM : length (map2 Z.max s s') = length levels) by (rewrite map2_length; [apply FS|destruct FS, FS'; congruence]).
  assert (NM : forall i, 0 <= i < n -> nth (Z.to_nat i) (map2 Z.max s s') 0 = Z.max (nth (Z.to_nat i) s 0) (nth (Z.to_nat i) s' 0)).
  { intros i Hi. apply map2_nth; [destruct FS as [-> _]|destruct FS' as [-> _]]; fold levels; unfold n in Hi; lia. }
  destruct (foldSet (fun x i => Z.max x (nth (Z.to_nat i) s' 0)) (length levels)) with (k := length levels) (d := d) as (I1 & W & V); auto.
  { intros x i Hx Hi. pose proof (nth_u32 s' (Z.to_nat i) RG). lia. }
  split.
  - unfold maxReduceSubspaceSizes. assert (NS : numSubspaces d = n) by (unfold numSubspaces; destruct I as (-> & _); reflexivity). rewrite NS. unfold n. set (d1 := fold_left _ _ d) in *. clearbody d1.
    apply dinv_delete. split; auto. split.
    + unfold chosen, numSubspaces in *. rewrite W. destruct I1 as (-> & _). destruct I as (L & _). rewrite L in C. exact C.
    + apply sizes_ext; [apply I1|exact LM|]. intros i Hi. change (nth (Z.to_nat i) (dSizes d1) 0) with (dataSize d1 i). rewrite V by (unfold n in Hi; lia). destruct (Z.ltb_spec i (Z.of_nat (length levels))); [|unfold n in Hi; lia].
      rewrite NM by auto. unfold dataSize. now rewrite S.
  - split; auto. intros i Hi. fold levels in Hi. fold n in Hi. fold levels. rewrite NM by auto. destruct FS as [_ FS], FS' as [_ FS']. pose proof (Hcnt (lvl i)). destruct (FS i Hi) as [->| ->], (FS' i Hi) as [->| ->]; auto; fold levels; fold lvl; lia.
Qed.

Lemma between_spec : forall M pr, map gTasks (pGroups pr) = tasks -> fit M -> (forall r g, nth_error (pGroups pr) r = Some g -> exists s, dinv s (gDsg g) /\ fit s /\ (r = out -> s = M) /\ forall i, 0 <= i < n -> nth (Z.to_nat i) s 0 <= nth (Z.to_nat i) M 0) ->
  let pr' := betweenGroups (length levels) pr in map gTasks (pGroups pr') = tasks /\ pExtra pr' = pExtra pr /\ forall g, In g (pGroups pr') -> fr M (gDsg g).
Proof.
  intros M pr T FM G. cbv zeta. pose proof (tasks_length _ T) as LG. unfold betweenGroups. fold n. cbv zeta. cbn [pGroups pExtra].
  assert (ME : map (maxSize (length (pGroups pr)) (fun r => dSizes (groupDsg (pGroups pr) r))) (zrange 0 n) = M).
  { apply sizes_ext; [apply maxMap_length|apply FM|]. intros i Hi. rewrite maxMap_nth by auto. apply (maxSize_one _ _ _ out).
    - lia.
    - destruct (nth_error_lt (pGroups pr) out ltac:(lia)) as (g & E). rewrite (groupDsg_nth _ _ _ E). destruct (G out g E) as (s & (_ & _ & ->) & _ & X & _). now rewrite X.
    - intros r Hr. destruct (nth_error_lt (pGroups pr) r Hr) as (g & E). rewrite (groupDsg_nth _ _ _ E). destruct (G r g E) as (s & (_ & _ & ->) & _ & _ & X). now apply X.
    - destruct FM as [_ FM]. pose proof (Hcnt (lvl i)). destruct (FM i Hi) as [->| ->]; [lia|apply Hcnt]. }
  rewrite ME. split; [now rewrite mapDsgs_tasks|]. split; auto. intros g Hg. apply mapDsgs_In in Hg. destruct Hg as (r & g0 & E0 & _ & ->). cbn [withDsg gDsg]. destruct (G r g0 E0) as (s & D & _). now apply (dinv_over s).
Qed.

Lemma enlarge_spec : forall s s' pr, sized s pr -> fr s (pExtra pr) -> fit s -> fit s' -> (forall c i, In c (concat tasks) -> 0 <= i < n -> containsL c (lvl i) -> nth (Z.to_nat i) s 0 = cnt (lvl i)) ->
  let pr' := enlargeProc esz (length levels) out s' pr in map gTasks (pGroups pr') = tasks /\ procInv dim rest cnt out s' pr'.
Proof.
  intros s s' pr (T & G & _) FX FS FS' HC. set (M := map2 Z.max s s'). pose proof (tasks_length _ T) as LG. cbv zeta. unfold enlargeProc. cbv zeta.
  assert (FM : fit M) by (destruct (nth_error_lt (pGroups pr) out ltac:(lia)) as (g & E); apply (maxReduceSizes_spec s s' (gDsg g)); auto; apply G; now apply nth_error_In in E).
  assert (NM : forall i, 0 <= i < n -> nth (Z.to_nat i) M 0 = Z.max (nth (Z.to_nat i) s 0) (nth (Z.to_nat i) s' 0)).
  { intros i Hi. apply map2_nth; [destruct FS as [-> _]|destruct FS' as [-> _]]; fold levels; unfold n in Hi; lia. }
  set (e := overwriteSizes s' (pExtra pr)). assert (Fe : fr s' e).
  { destruct FX as (I & S & L & K & KZ & C). destruct FS' as [L' F']. pose proof I as (_ & _ & W & _). unfold e, overwriteSizes. split; [|cbn; repeat split; auto].
    - unfold dsgInv. cbn [withSizes dSizes dWith dLen dKLen dPtr dKPtr]. split; auto. split; [apply (sizesFit_range dim rest cnt Hcnt [] s'); [split; auto|lia|]; intros i _; apply Hcnt|]. split; auto. rewrite L, K. split; intros X; now contradiction X.
    - unfold chosen in *. cbn [withSizes dWith]. destruct (dWith (pExtra pr)); auto. unfold numSubspaces in *. cbn [withSizes dSizes]. fold levels. now rewrite L'. }
  assert (SE : dSizes e = s') by reflexivity. rewrite SE.
  set (p0 := {| pGroups := mapDsgs (fun r d => if Nat.eqb r out then maxReduceSubspaceSizes s' d else d) (pGroups pr); pExtra := e |}).
  destruct (between_spec M p0) as (T1 & X1 & G1); [cbn [p0 pGroups]; now rewrite mapDsgs_tasks|exact FM| |].
  { intros r g Eg. unfold p0 in Eg. cbn [pGroups] in Eg. rewrite mapDsgs_nth in Eg. destruct (nth_error (pGroups pr) r) as [g0|] eqn:E0; [|discriminate]. injection Eg as <-. cbn [withDsg gDsg].
    pose proof (G g0 (nth_error_In _ _ E0)) as D. destruct (Nat.eqb_spec r out) as [->|N].
    - exists M. destruct (maxReduceSizes_spec s s' (gDsg g0) D FS FS') as [A _]. split; [now apply fresh_dinv|]. split; auto. split; auto. intros; lia.
    - exists s. split; auto. split; auto. split; [contradiction|]. intros i Hi. rewrite NM by auto. lia. }
  set (p1 := betweenGroups (length levels) p0) in *. clearbody p1. cbn [p0 pExtra] in X1.
  destruct (between_spec M (zeroProc esz p1)) as (T2 & X2 & G2); [cbn [zeroProc pGroups]; now rewrite mapDsgs_tasks|exact FM| |].
  { intros r g Eg. exists M. split; [|split; [auto|split; [auto|intros; lia]]]. cbn [zeroProc pGroups] in Eg. apply nth_error_In in Eg. apply mapDsgs_In in Eg. destruct Eg as (r0 & g0 & _ & Hg0 & ->). cbn [withDsg gDsg].
    apply full_dinv. apply fresh_zero; auto. }
  set (p2 := betweenGroups (length levels) (zeroProc esz p1)) in *. clearbody p2. cbn [zeroProc pExtra] in X2. rewrite X1 in X2. cbn [zeroProc pGroups pExtra]. rewrite mapDsgs_tasks. split; auto.
  pose proof (tasks_length _ T2) as LG2. pose proof (fit_sum M FM) as SM. pose proof (fit_sum s' FS') as SS'.
  assert (GD : forall g, In g (mapDsgs (fun _ d => zeroDsgData esz d) (pGroups p2)) -> full dim rest M (gDsg g) /\ In (gTasks g) tasks).
  { intros g Hg. apply mapDsgs_In in Hg. destruct Hg as (r & g0 & _ & Hg0 & ->). cbn [withDsg gDsg gTasks]. split; [apply fresh_zero; auto|]. rewrite <- T2. now apply in_map. }
  split; [|split; [|split; [|split; [|split; [|split]]]]]; cbn [zeroProc pGroups pExtra].
  - apply Forall_forall. intros g Hg. destruct (GD g Hg) as [F TI]. rewrite Forall_forall in HT. split; [now apply HT|]. split; [apply (full_dsgOk dim rest M); auto; lia|].
    intros c i Hc Hi Hl. fold levels in Hi, Hl |- *. fold n in Hi. fold lvl in Hl |- *. destruct F as (_ & _ & S). unfold dataSize. rewrite S, NM by auto. rewrite (HC c i); auto; [|apply in_concat; eauto].
    change (Z.max (cnt (lvl i)) (nth (Z.to_nat i) s' 0) = cnt (lvl i)). destruct FS' as [_ FS']. pose proof (Hcnt (lvl i)). pose proof (FS' i Hi : nth (Z.to_nat i) s' 0 = 0 \/ nth (Z.to_nat i) s' 0 = cnt (lvl i)). lia.
  - intros r r' g g' Eg Eg'. destruct (GD g (nth_error_In _ _ Eg)) as [(_ & _ & ->) _]. destruct (GD g' (nth_error_In _ _ Eg')) as [(_ & _ & ->) _]. reflexivity.
  - rewrite mapDsgs_length. lia.
  - rewrite X2. apply (full_dsgOk dim rest s'); [|lia]. apply full_zero; auto. apply fresh_zero; auto.
  - rewrite X2. assert (F : full dim rest s' (zeroDsgData esz (zeroDsgData esz e))) by (apply full_zero; auto; apply fresh_zero; auto). apply F.
  - intros g i Hg Hi. fold levels in Hi. fold n in Hi. destruct (GD g Hg) as [(_ & _ & S) _]. unfold dataSize. rewrite S, NM by auto. destruct FS as [_ FS], FS' as [_ FS']. pose proof (Hcnt (lvl i)).
    pose proof (FS i Hi : nth (Z.to_nat i) s 0 = 0 \/ nth (Z.to_nat i) s 0 = cnt (lvl i)). pose proof (FS' i Hi : nth (Z.to_nat i) s' 0 = 0 \/ nth (Z.to_nat i) s' 0 = cnt (lvl i)). lia.
  - intros g Hg. destruct (GD g Hg) as [(_ & _ & ->) _]. exact SM.
Qed.
End One.

(** ** All systems *)
Lemma exchange_table : forall P n own (ws : list (list (list Z) * list nat)), (1 <= n)%nat -> Z.of_nat n < 2 ^ 31 -> sizeTable P n own -> (length ws = 1 \/ length ws = 2)%nat ->
  (forall w, In w ws -> sizeTable P n (fst w) /\ Permutation (snd w) (seq 0 P)) ->
  exists res, reduceExtraSizes n (map (fun w => Some (writeValues 0 None false (fst w) (snd w))) ws) own = Some res /\ sizeTable P n res /\
    forall r i s, (r < P)%nat -> (i < n)%nat -> agreed s (at2 0 own r i :: map (fun w => at2 0 (fst w) r i) ws) -> 3 * s < 2 ^ 32 ->
      at2 0 res r i = if (2 <=? ExchangeProps.holders (at2 0%Z own r i :: map (fun w => at2 0%Z (fst w) r i) ws))%nat then s else 0.
Proof.
  intros P n own ws Hn HS TO HW H. destruct ws as [|[w1 o1] [|[w2 o2] [|]]]; cbn [length] in HW; try lia; cbn [map fst snd].
  - destruct (H (w1, o1) (or_introl eq_refl)) as [T1 P1]. destruct (C41_two_systems P n own w1 None o1 Hn HS TO T1 P1) as (res & E & TR & V); [cbn; lia|]. exists res. split; [exact E|]. split; [exact TR|].
    intros r i s Hr Hi HA _. now apply V.
  - destruct (H (w1, o1) (or_introl eq_refl)) as [T1 P1]. destruct (H (w2, o2) (or_intror (or_introl eq_refl))) as [T2 P2].
    destruct (C41_three_systems_partial P n own w1 w2 None None o1 o2 Hn HS TO T1 T2 P1 P2) as (res & E & TR & V); [cbn; lia|cbn; lia|]. exists res. split; [exact E|]. split; [exact TR|exact V].
Qed.

Lemma holders_count : forall {A} (f : A -> bool) c l, 0 < c -> ExchangeProps.holders (map (fun x => if f x then c else 0) l) = length (filter f l).
Proof.
  intros A f c l Hc. unfold ExchangeProps.holders. induction l as [|x l IH]; [reflexivity|]. cbn [map filter]. destruct (f x) eqn:E; cbn [filter].
  - destruct (Z.eqb_spec c 0); [lia|]. cbn. now rewrite IH.
  - cbn. exact IH.
Qed.
Lemma Permutation_filter_length : forall {A} (f : A -> bool) l l', Permutation l l' -> length (filter f l) = length (filter f l').
Proof. intros A f l l' P. induction P; cbn [filter]; auto; [destruct (f x); cbn; auto|destruct (f x), (f y); auto|congruence]. Qed.
Lemma two_in_filter : forall {A} (f : A -> bool) l s s' x x', nth_error l s = Some x -> nth_error l s' = Some x' -> s <> s' -> f x = true -> f x' = true -> (2 <= length (filter f l))%nat.
Proof.
  intros A f l s s' x x' E E' N Fx Fx'. pose proof (others_perm s l x E) as P. rewrite (Permutation_filter_length f _ _ P). cbn [filter]. rewrite Fx. cbn [length].
  assert (I : In x' (others s l)).
  { unfold others. apply in_app_iff. destruct (Nat.lt_ge_cases s' s) as [H|H].
    - left. apply (nth_error_In (firstn s l) s'). rewrite <- E'. rewrite <- (firstn_skipn s l) at 2. rewrite nth_error_app1; auto. rewrite firstn_length. assert (s < length l)%nat by (apply nth_error_Some; congruence). lia.
    - right. apply (nth_error_In (skipn (S s) l) (s' - S s)). rewrite <- E'. assert (s' < length l)%nat by (apply nth_error_Some; congruence).
      rewrite <- (firstn_skipn (S s) l) at 2. rewrite nth_error_app2; rewrite firstn_length; [f_equal; lia|lia]. }
  assert (X : In x' (filter f (others s l))) by (apply filter_In; auto). destruct (filter f (others s l)); [destruct X|cbn; lia].
Qed.

Lemma mapLv : forall (f : list Z -> Z) levels i, 0 <= i < Z.of_nat (length levels) -> nth (Z.to_nat i) (map f levels) 0 = f (nth (Z.to_nat i) levels []).
Proof. intros f levels i Hi. rewrite (nth_indep _ 0 (f [])) by (rewrite map_length; lia). apply map_nth. Qed.
Lemma listZ_ext : forall (s s' : list Z) m, length s = m -> length s' = m -> (forall i, 0 <= i < Z.of_nat m -> nth (Z.to_nat i) s 0 = nth (Z.to_nat i) s' 0) -> s = s'.
Proof. intros s s' m L L' H. apply nth_ext with (d := 0) (d' := 0); [congruence|]. intros k Hk. specialize (H (Z.of_nat k) ltac:(lia)). now rewrite Nat2Z.id in H. Qed.

Section Many.
Variables (dim : nat) (rest : list (list Z)).
Let levels := repeat 1 dim :: rest.
Hypothesis HL : sortedLevels dim levels.
Hypothesis HP : Forall (Forall (Z.le 1)) levels.
Let n := Z.of_nat (length levels).
Let lvl (i : Z) := nth (Z.to_nat i) levels [].
Hypothesis Hn : n < 2 ^ 31.
Variables (np : nat) (cnt : nat -> list Z -> Z).
Hypothesis Hcnt : forall p q, 0 <= cnt p q < 2 ^ 32.
Variables (esz : Z) (conf : nat -> Conf) (tasks : list (list (list (list Comp)))).
Hypothesis HS : (length tasks = 2 \/ length tasks = 3)%nat.
Hypothesis Hsum : forall p, (p < np)%nat -> zsum (map (cnt p) levels) < 2 ^ 31 - 1.
Hypothesis H3 : forall p l, (p < np)%nat -> In l levels -> 3 * cnt p l < 2 ^ 32.
Hypothesis HT : forall s ts, nth_error tasks s = Some ts -> length ts = np /\ Permutation (fOrder (conf s)) (seq 0 np) /\
  forall p gs, nth_error ts p = Some gs -> Forall (tasksOk dim (cnt p)) gs /\ (fOut (conf s) < length gs)%nat.

Definition holdingSystems (p : nat) (l : list Z) : nat := length (filter (fun ts => heldIn l (concat (nth p ts []))) tasks).
Definition sharedSizes (p : nat) : list Z := map (fun l => if (2 <=? holdingSystems p l)%nat then cnt p l else 0) levels.

Lemma shared_fit : forall p, sizesFit dim rest (cnt p) (sharedSizes p).
Proof.
  intros p. split; [unfold sharedSizes; now rewrite map_length|]. intros i Hi. unfold sharedSizes. change (nth (Z.to_nat i) (map (fun l => if (2 <=? holdingSystems p l)%nat then cnt p l else 0) levels) 0 = 0 \/
    nth (Z.to_nat i) (map (fun l => if (2 <=? holdingSystems p l)%nat then cnt p l else 0) levels) 0 = cnt p (lvl i)).
  pose proof (mapLv (fun l => if (2 <=? holdingSystems p l)%nat then cnt p l else 0) (repeat 1 dim :: rest) i Hi) as X. fold levels in X. rewrite X. destruct (2 <=? _)%nat; auto.
Qed.

Lemma startWide_spec : exists ws, startWide esz levels conf tasks = Some ws /\ length ws = length tasks /\
  forall s ts, nth_error tasks s = Some ts -> exists ps, nth_error ws s = Some ps /\ sysInv dim rest np cnt sharedSizes (fOut (conf s)) ps /\
    forall p gs, nth_error ts p = Some gs -> exists pr, nth_error ps p = Some pr /\ map gTasks (pGroups pr) = gs.
Proof.
  unfold startWide.
  destruct (mapO_nth (fun s (st : nat * list (list (list Comp))) ps => forall ts, nth_error tasks s = Some ts -> length ps = np /\
      forall p gs pr, nth_error ts p = Some gs -> nth_error ps p = Some pr -> sized dim rest gs (systemSizes dim rest (cnt p) (concat gs)) pr)
     (fun st => mapO (startProc esz levels (fOut (conf (fst st)))) (snd st)) (indexed tasks)) as (ws0 & E0 & L0 & F0).
  { intros s [sx ts] Es. rewrite indexed_nth in Es. destruct (nth_error tasks s) as [tsx|] eqn:Et; [|discriminate]. injection Es as <- <-. cbn [fst snd]. destruct (HT s tsx Et) as (LT & _ & GT).
    destruct (mapO_nth (fun p gs pr => sized dim rest gs (systemSizes dim rest (cnt p) (concat gs)) pr) (startProc esz levels (fOut (conf s))) tsx) as (ps & Ep & Lp & Fp).
    - intros p gs Eg. destruct (GT p gs Eg) as [TO OO]. assert (Hp : (p < np)%nat) by (rewrite <- LT; apply nth_error_Some; congruence). apply (startProc_spec dim rest HL HP (cnt p) (Hcnt p)); auto.
    - exists ps. split; auto. intros ts Ets. injection Ets as <-. split; [lia|]. intros p gs pr Eg Epr. destruct (Fp p gs Eg) as (b & Eb & _ & Q). rewrite Epr in Eb. now injection Eb as <-. }
  rewrite E0. rewrite indexed_length in L0.
  assert (F0' : forall s ts, nth_error tasks s = Some ts -> exists ps, nth_error ws0 s = Some ps /\ length ps = np /\
      forall p gs, nth_error ts p = Some gs -> exists pr, nth_error ps p = Some pr /\ sized dim rest gs (systemSizes dim rest (cnt p) (concat gs)) pr).
  { intros s ts Es. destruct (F0 s (s, ts)) as (ps & A & _ & B); [rewrite indexed_nth; now rewrite Es|]. destruct (B ts Es) as [Lp Fp]. exists ps. split; auto. split; auto. intros p gs Eg. destruct (HT s ts Es) as (LT & _).
    destruct (nth_error_lt ps p) as (pr & Epr); [rewrite Lp, <- LT; apply nth_error_Some; congruence|]. eauto. }
  (* the tables of sizes *)
  assert (TB : forall s ts ps, nth_error tasks s = Some ts -> nth_error ws0 s = Some ps ->
     map (fun p => dSizes (pExtra p)) ps = map (fun p => systemSizes dim rest (cnt p) (concat (nth p ts []))) (seq 0 np)).
  { intros s ts ps Es Eps. destruct (F0' s ts Es) as (psx & Ex & Lp & Fp). rewrite Eps in Ex. injection Ex as <-. destruct (HT s ts Es) as (LT & _).
    apply nth_ext with (d := []) (d' := []); [now rewrite !map_length, seq_length|]. intros p Hp. rewrite map_length, Lp in Hp. rewrite nth_map_seq by auto.
    destruct (nth_error_lt ts p ltac:(lia)) as (gs & Eg). destruct (Fp p gs Eg) as (pr & Epr & _ & _ & (_ & _ & SZ)). rewrite (nth_error_nth (map (fun p => dSizes (pExtra p)) ps) p (x := dSizes (pExtra pr))) by (rewrite nth_error_map'; now rewrite Epr).
    rewrite SZ. now rewrite (nth_error_nth ts p _ Eg). }
  set (tab := fun ts => map (fun p => systemSizes dim rest (cnt p) (concat (nth p ts []))) (seq 0 np)) in *.
  assert (TT : forall ts, sizeTable np (length levels) (tab ts)).
  { intros ts. split; [unfold tab; now rewrite map_length, seq_length|]. apply Forall_forall. intros v Hv. unfold tab in Hv. apply in_map_iff in Hv. destruct Hv as (p & <- & _). unfold systemSizes. now rewrite map_length. }
  set (files := map _ (indexed ws0)).
  assert (EF : files = map (fun sw : nat * list (list (list Comp)) => Some (writeValues 0 None false (tab (snd sw)) (fOrder (conf (fst sw))))) (indexed tasks)).
  { unfold files. apply nth_ext with (d := None) (d' := None); [now rewrite !map_length, !indexed_length|]. intros s Hs. rewrite map_length, indexed_length in Hs.
    destruct (nth_error_lt ws0 s Hs) as (ps & Eps). destruct (nth_error_lt tasks s ltac:(lia)) as (ts & Es).
    rewrite !(nth_error_nth (map _ _) s (x := Some (writeValues 0 None false (tab ts) (fOrder (conf s))))); auto; rewrite nth_error_map', indexed_nth.
    - now rewrite Es.
    - rewrite Eps. cbn [fst snd]. now rewrite (TB s ts ps Es Eps). }
  clearbody files. subst files.
  destruct (mapO_nth (fun s (sw : nat * list Proc) ps' => forall ts, nth_error tasks s = Some ts -> sysInv dim rest np cnt sharedSizes (fOut (conf s)) ps' /\
      forall p gs, nth_error ts p = Some gs -> exists pr, nth_error ps' p = Some pr /\ map gTasks (pGroups pr) = gs)
     (fun sw => exchangeSizes esz (length levels) (fOut (conf (fst sw))) (others (fst sw) (map (fun sw : nat * list (list (list Comp)) => Some (writeValues 0 None false (tab (snd sw)) (fOrder (conf (fst sw))))) (indexed tasks))) (snd sw)) (indexed ws0)) as (ws & E1 & L1 & F1).
  { intros s [sx ps] Es. rewrite indexed_nth in Es. destruct (nth_error ws0 s) as [psx|] eqn:Eps; [|discriminate]. injection Es as <- <-. cbn [fst snd].
    assert (Hs : (s < length tasks)%nat) by (rewrite <- L0; apply nth_error_Some; congruence). destruct (nth_error_lt tasks s Hs) as (ts & Ets).
    destruct (F0' s ts Ets) as (psy & Ey & Lp & Fp). rewrite Eps in Ey. injection Ey as <-. destruct (HT s ts Ets) as (LT & _ & GT).
    unfold exchangeSizes. set (ps1 := map (maxReduceInOutputGroup (length levels) (fOut (conf s))) psx).
    assert (P1 : forall p gs, nth_error ts p = Some gs -> exists pr, nth_error ps1 p = Some pr /\ sized dim rest gs (systemSizes dim rest (cnt p) (concat gs)) pr /\ fresh dim rest (systemSizes dim rest (cnt p) (concat gs)) (pExtra pr)).
    { intros p gs Eg. destruct (Fp p gs Eg) as (pr & Epr & SZ). destruct (GT p gs Eg) as [TO OO]. exists (maxReduceInOutputGroup (length levels) (fOut (conf s)) pr). split; [unfold ps1; rewrite nth_error_map'; now rewrite Epr|].
      apply (maxReduce_sized dim rest (cnt p) (Hcnt p) esz (fOut (conf s)) gs TO OO); auto. apply (ms_fit dim rest (cnt p) (Hcnt p) (fOut (conf s)) gs OO). }
    assert (LP1 : length ps1 = np) by (unfold ps1; now rewrite map_length).
    assert (TB1 : map (fun p => dSizes (pExtra p)) ps1 = tab ts).
    { unfold tab. apply nth_ext with (d := []) (d' := []); [now rewrite !map_length, seq_length|]. intros p Hp. rewrite map_length, LP1 in Hp. rewrite nth_map_seq by auto.
      destruct (nth_error_lt ts p ltac:(lia)) as (gs & Eg). destruct (P1 p gs Eg) as (pr & Epr & (_ & _ & (_ & _ & SZ)) & _). rewrite (nth_error_nth (map (fun p => dSizes (pExtra p)) ps1) p (x := dSizes (pExtra pr))) by (rewrite nth_error_map'; now rewrite Epr).
      rewrite SZ. now rewrite (nth_error_nth ts p _ Eg). }
    rewrite TB1. rewrite others_map. set (os := others s (indexed tasks)).
    assert (EI : nth_error (indexed tasks) s = Some (s, ts)) by (rewrite indexed_nth; now rewrite Ets).
    pose proof (others_perm s (indexed tasks) (s, ts) EI) as PM. fold os in PM.
    destruct (exchange_table np (length levels) (tab ts) (map (fun sw => (tab (snd sw), fOrder (conf (fst sw)))) os)) as (res & ER & TR & VR); auto.
    - cbn [levels length]. lia.
    - rewrite map_length. unfold os. rewrite others_length; rewrite indexed_length; lia.
    - intros w Hw. apply in_map_iff in Hw. destruct Hw as ((s' & ts') & <- & Hw). cbn [fst snd]. split; auto. unfold os in Hw. apply others_In in Hw. destruct Hw as (k & _ & Ek). rewrite indexed_nth in Ek.
      destruct (nth_error tasks k) as [tk|] eqn:Etk; [|discriminate]. injection Ek as <- <-. apply (HT k tk Etk).
    - rewrite map_map in ER. cbn [fst snd] in ER. rewrite ER.
      assert (RS : forall p, (p < np)%nat -> nth p res [] = sharedSizes p).
      { intros p Hp. apply (listZ_ext _ _ (length levels)); [apply (table_nth np (length levels)); auto|unfold sharedSizes; now rewrite map_length|]. intros i Hi. fold n in Hi.
        change (at2 0 res p (Z.to_nat i) = nth (Z.to_nat i) (sharedSizes p) 0).
        assert (AT : forall t, at2 0 (tab t) p (Z.to_nat i) = if heldIn (lvl i) (concat (nth p t [])) then cnt p (lvl i) else 0).
        { intros t. unfold at2, tab. rewrite nth_map_seq by auto. unfold systemSizes. apply (mapLv (fun l => if heldIn l (concat (nth p t [])) then cnt p l else 0) levels i Hi). }
        assert (EL : at2 0 (tab ts) p (Z.to_nat i) :: map (fun w : list (list Z) * list nat => at2 0 (fst w) p (Z.to_nat i)) (map (fun sw => (tab (snd sw), fOrder (conf (fst sw)))) os)
                   = map (fun sw : nat * list (list (list Comp)) => if heldIn (lvl i) (concat (nth p (snd sw) [])) then cnt p (lvl i) else 0) ((s, ts) :: os)).
        { cbn [map snd]. rewrite AT. f_equal. rewrite map_map. apply map_ext. intros [s' t']. cbn [fst snd]. apply AT. }
        unfold sharedSizes. rewrite (mapLv (fun l => if (2 <=? holdingSystems p l)%nat then cnt p l else 0) levels i Hi). change (nth (Z.to_nat i) levels []) with (lvl i).
        pose proof (Hcnt p (lvl i)) as HC. destruct (Z.eq_dec (cnt p (lvl i)) 0) as [Z0|Z0].
        - rewrite (VR p (Z.to_nat i) 1); auto; [|unfold n in Hi; lia|rewrite EL|lia].
          + rewrite EL. rewrite Z0. assert (HZ : ExchangeProps.holders (map (fun sw : nat * list (list (list Comp)) => if heldIn (lvl i) (concat (nth p (snd sw) [])) then 0 else 0) ((s, ts) :: os)) = 0%nat).
            { unfold ExchangeProps.holders. clear. induction ((s, ts) :: os) as [|x l IH]; auto. cbn [map filter]. destruct (heldIn _ _); exact IH. }
            rewrite HZ. change (2 <=? 0)%nat with false. destruct (2 <=? holdingSystems p (lvl i))%nat; reflexivity.
          + split; [lia|]. rewrite Z0. apply Forall_forall. intros x Hx. apply in_map_iff in Hx. destruct Hx as (sw & <- & _). left. destruct (heldIn _ _); reflexivity.
        - rewrite (VR p (Z.to_nat i) (cnt p (lvl i))); auto; [|unfold n in Hi; lia|rewrite EL|].
          + rewrite EL. rewrite holders_count by lia. rewrite <- (Permutation_filter_length _ _ _ PM).
            assert (HH : length (filter (fun sw : nat * list (list (list Comp)) => heldIn (lvl i) (concat (nth p (snd sw) []))) (indexed tasks)) = holdingSystems p (lvl i)).
            { unfold holdingSystems, indexed. clear. generalize 0%nat. induction tasks as [|t l IH]; intros a; [reflexivity|]. cbn [length seq combine filter snd]. destruct (heldIn (lvl i) (concat (nth p t []))); cbn [length]; now rewrite IH. }
            rewrite HH. reflexivity.
          + split; [lia|]. apply Forall_forall. intros x Hx. apply in_map_iff in Hx. destruct Hx as (sw & <- & _). destruct (heldIn _ _); auto.
          + apply H3; auto. unfold lvl. apply nth_In. unfold n in Hi. lia. }
      assert (LR : length res = np) by apply TR.
      eexists. split; [reflexivity|]. intros ts' Ets'. rewrite Ets in Ets'. injection Ets' as <-.
      assert (FIN : forall p gs, nth_error ts p = Some gs -> exists pr, nth_error (map (fun sp => enlargeProc esz (length levels) (fOut (conf s)) (fst sp) (snd sp)) (combine res ps1)) p = Some pr /\ map gTasks (pGroups pr) = gs /\ procInv dim rest (cnt p) (fOut (conf s)) (sharedSizes p) pr).
      { intros p gs Eg. assert (Hp : (p < np)%nat) by (rewrite <- LT; apply nth_error_Some; congruence). destruct (P1 p gs Eg) as (pr & Epr & SZ & FR). destruct (GT p gs Eg) as [TO OO].
        exists (enlargeProc esz (length levels) (fOut (conf s)) (sharedSizes p) pr). split.
        - rewrite nth_error_map'. assert (EC : nth_error (combine res ps1) p = Some (sharedSizes p, pr)).
          { rewrite (nth_error_nth' _ ([], pr)) by (rewrite combine_length, LR, LP1; lia). rewrite combine_nth by lia. now rewrite (nth_error_nth ps1 p _ Epr), RS. }
          now rewrite EC.
        - apply (enlarge_spec dim rest (cnt p) (Hcnt p) (Hsum p Hp) esz (fOut (conf s)) gs TO OO (systemSizes dim rest (cnt p) (concat gs))); auto.
          + apply (ms_fit dim rest (cnt p) (Hcnt p) (fOut (conf s)) gs OO).
          + apply shared_fit.
          + intros c i Hc Hi Hl. unfold systemSizes. rewrite (mapLv (fun l => if heldIn l (concat gs) then cnt p l else 0) (repeat 1 dim :: rest) i Hi).
            assert (X : heldIn (nth (Z.to_nat i) (repeat 1 dim :: rest) []) (concat gs) = true); [|now rewrite X]. unfold heldIn. apply existsb_exists. exists c. split; auto.
            apply (lvl_contains dim rest HL HP c i); auto. apply in_concat in Hc. destruct Hc as (cs & Hcs & Hc). rewrite Forall_forall in TO. destruct (TO cs Hcs) as [G _]. rewrite Forall_forall in G. now apply G. }
      split; [split|].
      + rewrite map_length, combine_length, LR, LP1. lia.
      + intros p pr' Epr'. assert (Hp : (p < np)%nat) by (assert (X : (p < length (map (fun sp => enlargeProc esz (length levels) (fOut (conf s)) (fst sp) (snd sp)) (combine res ps1)))%nat) by (apply nth_error_Some; congruence); rewrite map_length, combine_length in X; lia).
        destruct (nth_error_lt ts p ltac:(lia)) as (gs & Eg). destruct (FIN p gs Eg) as (pr & Epr & _ & PI). rewrite Epr' in Epr. now injection Epr as ->.
      + intros p gs Eg. destruct (FIN p gs Eg) as (pr & Epr & T & _). eauto. }
  rewrite indexed_length in L1. exists ws. split; [exact E1|]. split; [lia|]. intros s ts Es. destruct (F0' s ts Es) as (ps0 & E2 & _). destruct (F1 s (s, ps0)) as (ps & A & _ & B); [rewrite indexed_nth; now rewrite E2|].
  exists ps. split; auto.
Qed.
End Many.
