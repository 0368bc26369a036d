(** The agreement of several systems on the sizes of the subspaces, when they combine in chunks. *)
From Verif Require Import Base TensorModel Level1dModel LevelSetsModel LevelSetsProofs SubspaceModel CombiSchemeModel Hier1dModel Hier1dProofs HierMassProofs
  DofProofs SparseGridModel SparseGridProofs CombineModel SparseTransferProofs SparseGridProps ReduceModel ReduceProofs VoteProofs SubspaceReduceProofs
  CombiStepModel CombiStepProofs CombiInitProofs FileModel FileProps ExchangeModel ExchangeProps WideModel WideProofs WideStepProofs WideInitProofs
  WideChunkedModel WideChunkedProofs WideChunkedStepProofs.
From Coq Require Import QArith Qcanon Permutation.
Open Scope Z_scope.
Ltac Zify.zify_post_hook ::= idtac.

Lemma shared_pt : forall R s i, shared R s i <-> exists r r', r <> r' /\ (r < R)%nat /\ (r' < R)%nat /\ 0 < nth (Z.to_nat i) (s r) 0 /\ 0 < nth (Z.to_nat i) (s r') 0.
Proof.
  intros R s i. unfold shared. split; intros (r & r' & N & A).
  - destruct A as [A B]. apply holders_In in A, B. unfold has in A, B. rewrite Z.gtb_lt in A, B. exists r, r'. tauto.
  - exists r, r'. rewrite !holders_In. unfold has. rewrite !Z.gtb_lt. tauto.
Qed.
Lemma maxSize_ge : forall R s i r, (r < R)%nat -> nth (Z.to_nat i) (s r) 0 <= maxSize R s i.
Proof. intros R s i r Hr. unfold maxSize. destruct (maxSize_fold s i (seq 0 R) 0) as (_ & B & _). apply B. apply in_seq. lia. Qed.

Lemma zsum_member : forall l x, (forall y, In y l -> 0 <= y) -> In x l -> x <= zsum l.
Proof.
  induction l as [|a l IH]; intros x H Hx; [destruct Hx|]. change (zsum (a :: l)) with (a + zsum l).
  assert (P : 0 <= zsum l) by (apply zsum_nonneg; apply Forall_forall; intros y Hy; apply H; now right). pose proof (H a (or_introl eq_refl)).
  destruct Hx as [<-|Hx]; [lia|]. assert (x <= zsum l) by (apply IH; auto; intros y Hy; apply H; now right). lia.
Qed.

Section One.
Variables (dim : nat) (rest : list (list Z)).
Let levels := repeat 1 dim :: rest.
Hypothesis HL : sortedLevels dim levels.
Hypothesis HP : Forall (Forall (Z.le 1)) levels.
Let n := Z.of_nat (length levels).
Let lvl (i : Z) := nth (Z.to_nat i) levels [].
Variable cnt : list Z -> Z.
Hypothesis Hcnt : forall q, 0 <= cnt q < 2 ^ 32.
Hypothesis Hsum : zsum (map cnt levels) < 2 ^ 31 - 1.
Variables (esz : Z) (out : nat) (tasks : list (list Comp)).
Hypothesis HT : Forall (tasksOk dim cnt) tasks.
Hypothesis HO : (out < length tasks)%nat.
Hypothesis HR : (length tasks <= 256)%nat.
Let R := length tasks.
Let ms := systemSizes dim rest cnt (concat tasks).
Notation fit := (sizesFit dim rest cnt).
Notation fr := (fresh dim rest).
Notation dinv := (dinv dim rest).
Notation holdsTask := (holdsTask dim rest tasks).

Definition gInv (gs : list Group) : Prop := map gTasks gs = tasks /\ forall r g, nth_error gs r = Some g ->
  dinv (dSizes (gDsg g)) (gDsg g) /\ fit (dSizes (gDsg g)) /\ forall i, 0 <= i < n -> holdsTask r i -> dataSize (gDsg g) i = cnt (lvl i).
Definition szs (gs : list Group) (r : nat) : list Z := dSizes (groupDsg gs r).

Lemma gInv_length : forall gs, gInv gs -> length gs = R.
Proof. intros gs [T _]. unfold R. rewrite <- T. now rewrite map_length. Qed.
Lemma szs_nth : forall gs r g i, nth_error gs r = Some g -> nth (Z.to_nat i) (szs gs r) 0 = dataSize (gDsg g) i.
Proof. intros gs r g i E. unfold szs, dataSize. now rewrite (groupDsg_nth _ _ _ E). Qed.
Lemma fit_at : forall s i, fit s -> 0 <= i < n -> nth (Z.to_nat i) s 0 = 0 \/ nth (Z.to_nat i) s 0 = cnt (lvl i).
Proof. intros s i [_ F] Hi. exact (F i Hi). Qed.
Lemma szs_fit : forall gs r, gInv gs -> (r < R)%nat -> fit (szs gs r).
Proof. intros gs r G Hr. destruct (nth_error_lt gs r) as (g & E); [rewrite (gInv_length gs G); auto|]. unfold szs. rewrite (groupDsg_nth _ _ _ E). destruct G as [_ G]. now destruct (G r g E) as (_ & F & _). Qed.
(** setOutgroupCommunicator. *)
Definition dOk (r : nat) (d : DSG) : Prop := dinv (dSizes d) d /\ fit (dSizes d) /\ forall i, 0 <= i < n -> holdsTask r i -> dataSize d i = cnt (lvl i).
Lemma og_spec : forall D : nat -> DSG, (forall r, (r < R)%nat -> dOk r (D r)) -> let s := fun r => dSizes (D r) in forall r, (r < R)%nat ->
  let d' := overwriteSizesAndDelete (outgroupSizes (length levels) R s r) (D r) in
  fr (dSizes d') d' /\ dOk r d' /\ forall i, 0 <= i < n -> dataSize d' i = if memZ i (subspacesForMany (length levels) R s) then maxSize R s i else nth (Z.to_nat i) (s r) 0.
Proof.
  intros D HD s r Hr d'. set (is := subspacesForMany (length levels) R s).
  assert (MX : forall i, 0 <= i < n -> maxSize R s i = 0 \/ maxSize R s i = cnt (lvl i)).
  { intros i Hi. rewrite (maxSize_value R s i (cnt (lvl i))); [destruct (existsb _ _); auto|apply Hcnt|]. intros r' Hr'. apply fit_at; auto. now destruct (HD r' Hr') as (_ & F & _). }
  assert (NS : forall i, 0 <= i < n -> nth (Z.to_nat i) (outgroupSizes (length levels) R s r) 0 = if memZ i is then maxSize R s i else nth (Z.to_nat i) (s r) 0).
  { intros i Hi. unfold outgroupSizes. fold n. fold is. rewrite (nth_indep _ 0 ((fun i => if memZ i is then maxSize R s i else nth (Z.to_nat i) (s r) 0) 0)) by (rewrite map_length, zrange_length; lia).
    rewrite (map_nth (fun i => if memZ i is then maxSize R s i else nth (Z.to_nat i) (s r) 0)).
    assert (X : nth (Z.to_nat i) (zrange 0 n) 0 = i) by (unfold zrange; rewrite zseq_nth by lia; lia). rewrite X. reflexivity. }
  destruct (HD r Hr) as (DI & FI & HI).
  assert (FS : fit (outgroupSizes (length levels) R s r)).
  { split; [unfold outgroupSizes; rewrite map_length, zrange_length; fold levels; lia|]. intros i Hi. change (0 <= i < n) in Hi. rewrite NS by auto. destruct (memZ i is); [exact (MX i Hi)|]. apply (fit_at (s r) i); auto. }
  pose proof (dinv_over dim rest cnt Hcnt esz out tasks HO _ _ _ DI FS) as F. fold d' in F.
  split; [exact F|]. split.
  - split; [exact (fresh_dinv dim rest _ _ F)|]. split; [exact FS|]. intros i Hi H. change (nth (Z.to_nat i) (outgroupSizes (length levels) R s r) 0 = cnt (lvl i)). rewrite NS by auto. specialize (HI i Hi H). change (nth (Z.to_nat i) (s r) 0 = cnt (lvl i)) in HI.
    destruct (memZ i is); auto. pose proof (maxSize_ge R s i r Hr). pose proof (Hcnt (lvl i)). destruct (MX i Hi); lia.
  - intros i Hi. exact (NS i Hi).
Qed.

Lemma between_out : forall pr, gInv (pGroups pr) -> let pr' := betweenOutgroups (length levels) pr in
  gInv (pGroups pr') /\ pExtra pr' = pExtra pr /\ forall r g', nth_error (pGroups pr') r = Some g' ->
    fr (dSizes (gDsg g')) (gDsg g') /\ gComms g' = outgroupCommunicator (length levels) R (szs (pGroups pr)) r /\
    forall i, 0 <= i < n -> dataSize (gDsg g') i = if memZ i (subspacesForMany (length levels) R (szs (pGroups pr))) then maxSize R (szs (pGroups pr)) i else nth (Z.to_nat i) (szs (pGroups pr) r) 0.
Proof.
  intros pr G. cbv zeta. pose proof (gInv_length _ G) as LG. unfold betweenOutgroups. cbv zeta. cbn [pGroups pExtra]. rewrite LG. change (fun r => dSizes (groupDsg (pGroups pr) r)) with (szs (pGroups pr)).
  assert (OG := og_spec (groupDsg (pGroups pr))). cbv zeta in OG. change (fun r => dSizes (groupDsg (pGroups pr) r)) with (szs (pGroups pr)) in OG.
  assert (HD : forall r, (r < R)%nat -> dOk r (groupDsg (pGroups pr) r)).
  { intros r Hr. destruct (nth_error_lt (pGroups pr) r ltac:(lia)) as (g & E). rewrite (groupDsg_nth _ _ _ E). destruct G as [_ G]. exact (G r g E). }
  specialize (OG HD). set (s := szs (pGroups pr)) in *. set (is := subspacesForMany (length levels) R s) in *.
  assert (NG : forall r, nth_error (map (fun rg => {| gTasks := gTasks (snd rg); gDsg := overwriteSizesAndDelete (outgroupSizes (length levels) R s (fst rg)) (gDsg (snd rg)); gComms := outgroupCommunicator (length levels) R s (fst rg) |}) (indexed (pGroups pr))) r
     = match nth_error (pGroups pr) r with None => None | Some g => Some {| gTasks := gTasks g; gDsg := overwriteSizesAndDelete (outgroupSizes (length levels) R s r) (gDsg g); gComms := outgroupCommunicator (length levels) R s r |} end).
  { intros r. rewrite nth_error_map', indexed_nth. destruct (nth_error (pGroups pr) r); reflexivity. }
  set (gs' := map _ (indexed (pGroups pr))) in *. clearbody gs'.
  assert (ALL : forall r g', nth_error gs' r = Some g' -> (r < R)%nat /\ gDsg g' = overwriteSizesAndDelete (outgroupSizes (length levels) R s r) (groupDsg (pGroups pr) r) /\ gComms g' = outgroupCommunicator (length levels) R s r).
  { intros r g' E'. rewrite NG in E'. destruct (nth_error (pGroups pr) r) as [g|] eqn:E; [|discriminate]. injection E' as <-. rewrite (groupDsg_nth _ _ _ E). split; [rewrite <- LG; apply nth_error_Some; congruence|auto]. }
  split; [split|split; auto].
  - destruct G as [T _]. rewrite <- T. apply list_nth_ext. intros r. rewrite !nth_error_map'. rewrite NG. destruct (nth_error (pGroups pr) r); reflexivity.
  - intros r g' E'. destruct (ALL r g' E') as (Hr & -> & _). exact (proj1 (proj2 (OG r Hr))).
  - intros r g' E'. destruct (ALL r g' E') as (Hr & -> & CM). destruct (OG r Hr) as (A & _ & B). auto.
Qed.

Lemma many_kept : forall pr pr', gInv (pGroups pr) -> length (pGroups pr') = R -> 
  (forall r g', nth_error (pGroups pr') r = Some g' -> forall i, 0 <= i < n -> dataSize (gDsg g') i = if memZ i (subspacesForMany (length levels) R (szs (pGroups pr))) then maxSize R (szs (pGroups pr)) i else nth (Z.to_nat i) (szs (pGroups pr) r) 0) ->
  forall i, 0 <= i < n -> (shared R (szs (pGroups pr')) i <-> shared R (szs (pGroups pr)) i) /\ (shared R (szs (pGroups pr)) i -> forall r, (r < R)%nat -> 0 < nth (Z.to_nat i) (szs (pGroups pr') r) 0).
Proof.
  intros pr pr' G LG V i Hi.
  assert (VS : forall r, (r < R)%nat -> nth (Z.to_nat i) (szs (pGroups pr') r) 0 = if memZ i (subspacesForMany (length levels) R (szs (pGroups pr))) then maxSize R (szs (pGroups pr)) i else nth (Z.to_nat i) (szs (pGroups pr) r) 0).
  { intros r Hr. destruct (nth_error_lt (pGroups pr') r ltac:(lia)) as (g' & E'). rewrite (szs_nth _ r g' i E'). now apply V. }
  assert (POS : shared R (szs (pGroups pr)) i -> forall r, (r < R)%nat -> 0 < nth (Z.to_nat i) (szs (pGroups pr') r) 0).
  { intros Sh r Hr. rewrite VS by auto. assert (M : memZ i (subspacesForMany (length levels) R (szs (pGroups pr))) = true) by (apply memZ_In, forMany_In; auto). rewrite M.
    apply shared_pt in Sh. destruct Sh as (r1 & _ & _ & H1 & _ & P & _). pose proof (maxSize_ge R (szs (pGroups pr)) i r1 H1). lia. }
  split; auto. split.
  - intros Sh. destruct (memZ i (subspacesForMany (length levels) R (szs (pGroups pr)))) eqn:M; [apply memZ_In, forMany_In in M; tauto|].
    apply shared_pt in Sh. apply shared_pt. destruct Sh as (r & r' & N & H & H' & P & P'). rewrite VS in P, P' by auto. exists r, r'. auto.
  - intros Sh. pose proof Sh as Sh0. apply shared_pt in Sh0. destruct Sh0 as (r & r' & N & H & H' & _). apply shared_pt. exists r, r'. auto 6.
Qed.

(** The groups after their registration and first agreement. *)
Definition bounded (gs : list Group) : Prop := forall r g i, nth_error gs r = Some g -> 0 <= i < n -> dataSize (gDsg g) i <= nth (Z.to_nat i) ms 0.

Lemma ms_nth : forall i, 0 <= i < n -> nth (Z.to_nat i) ms 0 = if heldIn (lvl i) (concat tasks) then cnt (lvl i) else 0.
Proof. intros i Hi. exact (mapL_nth dim rest cnt Hcnt out tasks HO (fun l => if heldIn l (concat tasks) then cnt l else 0) i Hi). Qed.
Lemma heldIn_holds : forall i, 0 <= i < n -> (heldIn (lvl i) (concat tasks) = true <-> exists r, (r < R)%nat /\ holdsTask r i).
Proof.
  intros i Hi. unfold heldIn. rewrite existsb_exists. assert (G : forall r c, In c (nth r tasks []) -> (containsL c (lvl i) <-> vleb (lvl i) (gLevel (cGrid c)) = true)).
  { intros r c Hc. pose proof (ts_ok dim cnt tasks HT r) as [GC _]. rewrite Forall_forall in GC. symmetry. apply (lvl_contains dim rest HL HP c i); auto. }
  split.
  - intros (c & Hc & V). apply in_concat in Hc. destruct Hc as (cs & Hcs & Hc). apply (In_nth _ _ []) in Hcs. destruct Hcs as (r & Hr & <-). exists r. split; auto. exists c. split; auto. now apply (G r).
  - intros (r & Hr & c & Hc & Hl). exists c. split; [|now apply (G r)]. apply in_concat. exists (nth r tasks []). split; auto. now apply nth_In.
Qed.

Lemma init_chunk : exists gs, initGroups VChunkedOutgroup esz levels tasks = Some gs /\ gInv gs /\ bounded gs.
Proof.
  destruct (init_dsgs dim rest HL cnt Hcnt esz tasks HT false) as (ds & E & F). unfold initGroups. fold levels in E. rewrite E. cbv zeta. set (D := dsgAt ds) in *.
  assert (HD : forall r, (r < R)%nat -> dOk r (D r)).
  { intros r Hr. destruct (F r Hr) as (I & C & A & B & _). split; [split; auto|]. split; [|exact B]. split; [apply I|exact A]. }
  assert (OG := og_spec D HD). cbv zeta in OG. fold R. set (s := fun r => dSizes (D r)) in *.
  set (gf := fun r => {| gTasks := nth r tasks []; gDsg := overwriteSizesAndDelete (outgroupSizes (length levels) R s r) (D r); gComms := outgroupCommunicator (length levels) R s r |}).
  change (map _ (seq 0 R)) with (map gf (seq 0 R)). exists (map gf (seq 0 R)). split; auto.
  assert (NE : forall r g, nth_error (map gf (seq 0 R)) r = Some g -> (r < R)%nat /\ g = gf r).
  { intros r g Eg. rewrite nth_error_map_seq in Eg. destruct (Nat.ltb_spec r R); [|discriminate]. injection Eg as <-. auto. }
  split; [split|].
  - rewrite map_map. cbn [gf gTasks]. apply nth_seq_map.
  - intros r g Eg. destruct (NE r g Eg) as (Hr & ->). cbn [gf gDsg]. exact (proj1 (proj2 (OG r Hr))).
  - intros r g i Eg Hi. destruct (NE r g Eg) as (Hr & ->). cbn [gf gDsg]. destruct (OG r Hr) as (_ & _ & V). rewrite V by auto.
    assert (LE : forall r', (r' < R)%nat -> nth (Z.to_nat i) (s r') 0 <= nth (Z.to_nat i) ms 0).
    { intros r' Hr'. rewrite ms_nth by auto. pose proof (Hcnt (lvl i)). destruct (F r' Hr') as (_ & _ & A & _ & Z0). specialize (A i Hi). specialize (Z0 i Hi). unfold s. change (nth (Z.to_nat i) (dSizes (D r')) 0) with (dataSize (D r') i).
      destruct (heldIn (lvl i) (concat tasks)) eqn:EH; [change (dataSize (D r') i = 0 \/ dataSize (D r') i = cnt (lvl i)) in A; lia|]. rewrite Z0; [lia|]. intros HH. assert (X : heldIn (lvl i) (concat tasks) = true) by (apply heldIn_holds; eauto). congruence. }
    destruct (memZ i _); [|now apply LE]. unfold maxSize. destruct (maxSize_fold s i (seq 0 R) 0) as (_ & _ & [X|(r' & Hr' & X)]); rewrite X.
    + rewrite ms_nth by auto. pose proof (Hcnt (lvl i)). destruct (heldIn _ _); lia.
    + apply LE. apply in_seq in Hr'. lia.
Qed.

(** maxReduceSubspaceSizesInOutputGroup. *)
Lemma maxReduce_chunk : forall s pr, gInv (pGroups pr) -> bounded (pGroups pr) -> dinv s (pExtra pr) -> fit s -> (forall i, 0 <= i < n -> holdsTask out i -> nth (Z.to_nat i) s 0 = cnt (lvl i)) ->
  (forall i, 0 <= i < n -> nth (Z.to_nat i) s 0 <= nth (Z.to_nat i) ms 0) ->
  let pr' := maxReduceInOutputGroup (length levels) out pr in gInv (pGroups pr') /\ bounded (pGroups pr') /\ fr ms (pExtra pr').
Proof.
  intros s pr G B DX FS HS LS. cbv zeta. pose proof (gInv_length _ G) as LG. destruct DX as (IX & CX & SX).
  assert (ME : map (maxSize (length (pGroups pr)) (fun r => if Nat.eqb r out then dSizes (pExtra pr) else dSizes (groupDsg (pGroups pr) r))) (zrange 0 n) = ms).
  { apply (sizes_ext dim rest cnt Hcnt esz out tasks HO); [apply (maxMap_length dim rest cnt Hcnt out tasks HO)|apply (ms_fit dim rest cnt Hcnt out tasks HO)|]. intros i Hi. change (0 <= i < n) in Hi.
    etransitivity; [apply (maxMap_nth dim rest cnt Hcnt out tasks HO); exact Hi|].
    assert (LE : forall r, (r < R)%nat -> nth (Z.to_nat i) (if Nat.eqb r out then dSizes (pExtra pr) else dSizes (groupDsg (pGroups pr) r)) 0 <= nth (Z.to_nat i) ms 0).
    { intros r Hr. destruct (Nat.eqb_spec r out) as [->|N]; [rewrite SX; auto|]. destruct (nth_error_lt (pGroups pr) r ltac:(lia)) as (g & E). rewrite (groupDsg_nth _ _ _ E). exact (B r g i E Hi). }
    pose proof (Hcnt (lvl i)) as HC. pose proof (ms_nth i Hi) as MN. destruct (heldIn (lvl i) (concat tasks)) eqn:EH.
    - pose proof EH as EH0. apply (heldIn_holds i Hi) in EH0. destruct EH0 as (r & Hr & HH). apply (maxSize_one _ _ _ r); [lia| |rewrite LG; exact LE|lia]. cbv beta. rewrite MN. destruct (Nat.eqb_spec r out) as [->|N]; [rewrite SX; auto|].
      destruct (nth_error_lt (pGroups pr) r ltac:(lia)) as (g & E). rewrite (groupDsg_nth _ _ _ E). destruct G as [_ G]. destruct (G r g E) as (_ & _ & H). now apply H.
    - apply (maxSize_one _ _ _ out); [rewrite LG; exact HO| |rewrite LG; exact LE|lia]. cbv beta. rewrite Nat.eqb_refl, SX. pose proof (LS i Hi). pose proof (fit_at s i FS Hi). lia. }
  unfold maxReduceInOutputGroup. fold n. cbv zeta. rewrite ME. cbn [pGroups pExtra].
  assert (NG : forall r g', nth_error (mapDsgs (fun r d => if Nat.eqb r out then d else deleteSubspaceData d) (pGroups pr)) r = Some g' -> exists g, nth_error (pGroups pr) r = Some g /\ dSizes (gDsg g') = dSizes (gDsg g) /\ (dinv (dSizes (gDsg g)) (gDsg g) -> dinv (dSizes (gDsg g)) (gDsg g'))).
  { intros r g' E'. rewrite mapDsgs_nth in E'. destruct (nth_error (pGroups pr) r) as [g|] eqn:E; [|discriminate]. injection E' as <-. exists g. split; auto. cbn [withDsg gDsg]. destruct (Nat.eqb r out); split; auto. intros D. apply fresh_dinv. exact (dinv_delete dim rest _ _ D). }
  split; [split|split].
  - rewrite mapDsgs_tasks. apply G.
  - intros r g' E'. destruct (NG r g' E') as (g & E & S & DI). destruct G as [_ G]. destruct (G r g E) as (D & F & H). rewrite S. split; [auto|]. split; auto. intros i Hi Hh. unfold dataSize. rewrite S. now apply H.
  - intros r g' i E' Hi. destruct (NG r g' E') as (g & E & S & _). unfold dataSize. rewrite S. exact (B r g i E Hi).
  - apply (dinv_over dim rest cnt Hcnt esz out tasks HO s); [split; auto|apply (ms_fit dim rest cnt Hcnt out tasks HO)].
Qed.

Lemma startChunkedProc_spec : exists pr, startChunkedProc esz levels out tasks = Some pr /\ gInv (pGroups pr) /\ bounded (pGroups pr) /\ fr ms (pExtra pr).
Proof.
  unfold startChunkedProc. destruct init_chunk as (gs & -> & G & B). eexists. split; [reflexivity|]. pose proof (gInv_length _ G) as LG. destruct (nth_error_lt gs out ltac:(rewrite LG; exact HO)) as (go & Eo).
  pose proof G as [_ G']. destruct (G' out go Eo) as (D & F & H). rewrite (groupDsg_nth gs out go Eo).
  apply (maxReduce_chunk (dSizes (gDsg go))); cbn [pGroups pExtra]; auto.
  - apply (newExtra_spec dim rest cnt Hcnt esz out tasks HO); auto.
  - intros i Hi. exact (B out go i Eo Hi).
Qed.
Lemma ms_held : forall i, 0 <= i < n -> holdsTask out i -> nth (Z.to_nat i) ms 0 = cnt (lvl i).
Proof. intros i Hi H. rewrite ms_nth by auto. assert (X : heldIn (lvl i) (concat tasks) = true) by (apply heldIn_holds; eauto). now rewrite X. Qed.
Lemma maxReduce_again : forall pr, gInv (pGroups pr) -> bounded (pGroups pr) -> fr ms (pExtra pr) ->
  let pr' := maxReduceInOutputGroup (length levels) out pr in gInv (pGroups pr') /\ bounded (pGroups pr') /\ fr ms (pExtra pr').
Proof.
  intros pr G B F. apply (maxReduce_chunk ms); auto; [exact (fresh_dinv dim rest _ _ F)|apply (ms_fit dim rest cnt Hcnt out tasks HO)|apply ms_held|]. intros; lia.
Qed.

Lemma setZero_dinv : forall s d, dinv s d -> dinv s (setZero d).
Proof. intros s d (I & C & S). split; [exact I|]. split; auto. Qed.
Lemma setZero_groups : forall gs, gInv gs -> gInv (mapDsgs (fun _ d => setZero d) gs).
Proof.
  intros gs [T G]. split; [now rewrite mapDsgs_tasks|]. intros r g' E'. rewrite mapDsgs_nth in E'. destruct (nth_error gs r) as [g|] eqn:E; [|discriminate]. injection E' as <-. cbn [withDsg gDsg]. destruct (G r g E) as (D & F & H).
  split; [exact (setZero_dinv _ _ D)|]. split; auto.
Qed.

Lemma enlargeChunked_spec : forall E pr, gInv (pGroups pr) -> fr ms (pExtra pr) -> fit E -> 0 < zsum E ->
  let pr' := enlargeChunked esz (length levels) out E pr in map gTasks (pGroups pr') = tasks /\ exists is, chunkInv dim rest cnt E out is pr'.
Proof.
  intros E pr G FX FE PE. pose proof (gInv_length _ G) as LG. cbv zeta. unfold enlargeChunked. cbv zeta.
  set (e := overwriteSizes E (pExtra pr)). assert (Fe : fr E e).
  { destruct FX as (I & S & L & K & KZ & C). destruct FE as [L' F']. pose proof I as (_ & _ & W & _). unfold e, overwriteSizes. split; [|cbn; repeat split; auto].
    - unfold dsgInv. cbn [withSizes dSizes dWith dLen dKLen dPtr dKPtr]. split; auto. split; [apply (sizesFit_range dim rest cnt Hcnt [] E); [split; auto|lia|]; intros i _; apply Hcnt|]. split; auto. rewrite L, K. split; intros X; now contradiction X.
    - unfold chosen in *. cbn [withSizes dWith]. destruct (dWith (pExtra pr)); auto. unfold numSubspaces in *. cbn [withSizes dSizes]. fold levels. now rewrite L'. }
  assert (SE : dSizes e = E) by reflexivity. rewrite SE. clearbody e.
  set (p0 := {| pGroups := mapDsgs (fun r d => if Nat.eqb r out then maxReduceSubspaceSizes E d else d) (pGroups pr); pExtra := e |}).
  (* the output group with the sizes of the other systems *)
  assert (G0 : gInv (pGroups p0) /\ exists g0, nth_error (pGroups p0) out = Some g0 /\ forall i, 0 <= i < n -> nth (Z.to_nat i) E 0 <= dataSize (gDsg g0) i).
  { assert (NM : forall s i, fit s -> 0 <= i < n -> nth (Z.to_nat i) (map2 Z.max s E) 0 = Z.max (nth (Z.to_nat i) s 0) (nth (Z.to_nat i) E 0)).
    { intros s i FS Hi. apply map2_nth; [destruct FS as [-> _]|destruct FE as [-> _]]; fold levels; unfold n in Hi; lia. }
    split; [split|].
    - unfold p0. cbn [pGroups]. rewrite mapDsgs_tasks. apply G.
    - intros r g' E'. unfold p0 in E'. cbn [pGroups] in E'. rewrite mapDsgs_nth in E'. destruct (nth_error (pGroups pr) r) as [g|] eqn:Eg; [|discriminate]. injection E' as <-. cbn [withDsg gDsg]. pose proof G as [_ G']. destruct (G' r g Eg) as (D & F & H).
      destruct (Nat.eqb_spec r out) as [->|N]; [|auto]. destruct (maxReduceSizes_spec dim rest cnt Hcnt esz out tasks HO _ E (gDsg g) D F FE) as [A B]. pose proof A as (_ & S & _). rewrite S. split; [rewrite <- S at 1; rewrite S; now apply fresh_dinv|]. split; auto.
      intros i Hi Hh. unfold dataSize. rewrite S. rewrite NM by auto. specialize (H i Hi Hh). unfold dataSize in H. rewrite H. pose proof (fit_at E i FE Hi). pose proof (Hcnt (lvl i)). lia.
    - destruct (nth_error_lt (pGroups pr) out ltac:(rewrite LG; exact HO)) as (g & Eg). eexists. split; [unfold p0; cbn [pGroups]; rewrite mapDsgs_nth, Eg; reflexivity|]. cbn [withDsg gDsg]. rewrite Nat.eqb_refl. intros i Hi. pose proof G as [_ G']. destruct (G' out g Eg) as (D & F & H).
      destruct (maxReduceSizes_spec dim rest cnt Hcnt esz out tasks HO _ E (gDsg g) D F FE) as [A B]. pose proof A as (_ & S & _). unfold dataSize. rewrite S, NM by auto. lia. }
  destruct G0 as (G0 & go & Ego & LEo). assert (X0 : pExtra p0 = e) by reflexivity. clearbody p0.
  destruct (between_out p0 G0) as (G1 & X1 & V1). set (q1 := betweenOutgroups (length levels) p0) in *. clearbody q1.
  pose proof (setZero_groups _ G1) as GZ. change (mapDsgs (fun _ d => setZero d) (pGroups q1)) with (pGroups (zeroExtra esz q1)) in GZ.
  assert (XZ : pExtra (zeroExtra esz q1) = zeroDsgData esz e) by (cbn [zeroExtra pExtra]; congruence).
  assert (VZ : forall r g', nth_error (pGroups (zeroExtra esz q1)) r = Some g' -> forall i, 0 <= i < n -> dataSize (gDsg g') i = if memZ i (subspacesForMany (length levels) R (szs (pGroups p0))) then maxSize R (szs (pGroups p0)) i else nth (Z.to_nat i) (szs (pGroups p0) r) 0).
  { intros r g' E' i Hi. cbn [zeroExtra pGroups] in E'. rewrite mapDsgs_nth in E'. destruct (nth_error (pGroups q1) r) as [g|] eqn:Eg; [|discriminate]. injection E' as <-. cbn [withDsg gDsg]. destruct (V1 r g Eg) as (_ & _ & V). exact (V i Hi). }
  assert (SH := many_kept p0 (zeroExtra esz q1) G0 (gInv_length _ GZ) VZ). set (p1 := zeroExtra esz q1) in *. clearbody p1.
  destruct (between_out p1 GZ) as (G2 & X2 & V2). set (q2 := betweenOutgroups (length levels) p1) in *. clearbody q2.
  assert (SH2 : forall i, 0 <= i < n -> (In i (subspacesForMany (length levels) R (szs (pGroups p1))) <-> shared R (szs (pGroups p0)) i)).
  { intros i Hi. rewrite forMany_In. destruct (SH i Hi) as [A _]. rewrite A. fold n. tauto. }
  set (is := subspacesForMany (length levels) R (szs (pGroups p1))) in *.
  pose proof (setZero_groups _ G2) as G3. change (mapDsgs (fun _ d => setZero d) (pGroups q2)) with (pGroups (zeroExtra esz q2)) in G3. split; [apply G3|].
  exists is.
  assert (ALL : forall r g, nth_error (pGroups (zeroExtra esz q2)) r = Some g -> (r < R)%nat /\ gTasks g = nth r tasks [] /\ dsgInv (length levels) (gDsg g) /\ kzero (gDsg g) /\ fit (dSizes (gDsg g)) /\ (forall i, 0 <= i < n -> holdsTask r i -> dataSize (gDsg g) i = cnt (lvl i)) /\
     gComms g = outgroupCommunicator (length levels) R (szs (pGroups p1)) r /\ forall i, 0 <= i < n -> dataSize (gDsg g) i = if memZ i is then maxSize R (szs (pGroups p1)) i else nth (Z.to_nat i) (szs (pGroups p1) r) 0).
  { intros r g Eg. assert (Hr : (r < R)%nat) by (rewrite <- (gInv_length _ G3); apply nth_error_Some; congruence). split; auto. pose proof G3 as [T3 G3']. split; [rewrite <- T3; symmetry; apply nth_error_nth; rewrite nth_error_map'; now rewrite Eg|].
    destruct (G3' r g Eg) as ((I & _) & F & H). split; auto. cbn [zeroExtra pGroups] in Eg. rewrite mapDsgs_nth in Eg. destruct (nth_error (pGroups q2) r) as [g2|] eqn:E2; [|discriminate]. injection Eg as <-. cbn [withDsg gDsg gComms] in *.
    destruct (V2 r g2 E2) as (_ & CM & V). split; [intros k _; reflexivity|]. split; auto. }
  assert (TA : forall r, tasksAt (pGroups (zeroExtra esz q2)) r = nth r tasks []).
  { intros r. unfold tasksAt. destruct (nth_error (pGroups (zeroExtra esz q2)) r) as [g|] eqn:Eg; [now destruct (ALL r g Eg) as (_ & A & _)|]. symmetry. apply nth_overflow. apply nth_error_None in Eg. rewrite (gInv_length _ G3) in Eg. exact Eg. }
  assert (GE : forall r i, (r < R)%nat -> 0 <= i < n -> holdsTask r i -> nth (Z.to_nat i) (szs (pGroups p0) r) 0 = cnt (lvl i)).
  { intros r i Hr Hi H. destruct (nth_error_lt (pGroups p0) r ltac:(rewrite (gInv_length _ G0); auto)) as (g & Eg). rewrite (szs_nth _ r g i Eg). pose proof G0 as [_ G0']. destruct (G0' r g Eg) as (_ & _ & HH). now apply HH. }
  assert (HLT : forall r i, holdsTask r i -> (r < R)%nat) by (apply (holdsTask_lt dim rest tasks)).
  split; [|split; [split; [|split; [|split]]|split; [|split; [|split]]]].
  - apply Forall_forall. intros g Hg. apply In_nth_error in Hg. destruct Hg as (r & Eg). destruct (ALL r g Eg) as (Hr & T & I & K & F & H & _). split; [rewrite T; apply (ts_ok dim cnt tasks HT)|]. split; auto. split; auto. split.
    + intros c i Hc Hi Hl. apply H; auto. exists c. rewrite <- T. auto.
    + eapply Forall_impl; [|apply (sizesFit_range dim rest cnt Hcnt [] _ (2 ^ 31) F); [lia|]].
      * cbv beta. intros; lia.
      * intros i Hi. change (cnt (lvl i) < 2 ^ 31). assert (X : cnt (lvl i) <= zsum (map cnt levels)); [|lia]. assert (IL : In (cnt (lvl i)) (map cnt levels)) by (apply in_map; unfold lvl; apply nth_In; fold levels in Hi; lia).
        apply zsum_member; [|exact IL]. intros x Hx. apply in_map_iff in Hx. destruct Hx as (q & <- & _). apply Hcnt.
  - split; [apply sorted_filter, zrange_sorted|]. intros i Hi. now apply forMany_In in Hi.
  - intros g Hg. apply In_nth_error in Hg. destruct Hg as (r & Eg). destruct (ALL r g Eg) as (Hr & _ & _ & _ & _ & _ & CM & _). rewrite CM. unfold outgroupCommunicator. fold is. destruct (memN r (ranksOf (manyGroups (length levels) R (szs (pGroups p1))))) eqn:EM; [right; eauto|].
    left. split; auto. destruct is as [|i is'] eqn:EI; auto. exfalso. assert (X : memN r (ranksOf (manyGroups (length levels) R (szs (pGroups p1)))) = true); [|congruence]. apply memN_In. apply (manyGroups_In _ _ _ _ HR).
    assert (II : In i is) by (rewrite EI; now left). unfold is in II. apply forMany_In in II. destruct II as [Hi Sh]. exists i. split; auto. split; auto. apply holders_In. split; auto. unfold has. rewrite Z.gtb_lt. apply (SH i Hi); auto. now apply (SH i Hi).
  - intros g g' i Hg Hg' Hi. apply In_nth_error in Hg, Hg'. destruct Hg as (r & Eg), Hg' as (r' & Eg'). destruct (ALL r g Eg) as (_ & _ & _ & _ & _ & _ & _ & V). destruct (ALL r' g' Eg') as (_ & _ & _ & _ & _ & _ & _ & V').
    assert (Hn : 0 <= i < n) by (unfold is in Hi; now apply forMany_In in Hi). rewrite V, V' by auto. apply memZ_In in Hi. now rewrite Hi.
  - intros r r' c c0 i Hi NI Nr Hc0 Hl0 P Hc Hl. change (0 <= i < n) in Hi. change (0 < cnt (lvl i)) in P. rewrite TA in Hc, Hc0. assert (H0 : holdsTask r i) by (exists c0; auto). assert (H1 : holdsTask r' i) by (exists c; auto).
    apply NI. apply SH2; auto. apply shared_pt. exists r', r. split; auto. split; [eauto|]. split; [eauto|]. rewrite !GE; eauto.
  - destruct (nth_error_lt (pGroups (zeroExtra esz q2)) out ltac:(rewrite (gInv_length _ G3); exact HO)) as (g & Eg). exists g. split; auto. intros i Hi. change (0 <= i < n) in Hi.
    destruct (ALL out g Eg) as (_ & _ & _ & _ & F & _ & _ & V). pose proof (fit_at E i FE Hi) as FEi. destruct FEi as [Z0|FEi]; [now left|]. destruct (Z.eq_dec (cnt (lvl i)) 0) as [Z1|Z1]; [left; congruence|]. pose proof (Hcnt (lvl i)) as HC.
    right. split; [|exact FEi]. pose proof (fit_at _ i F Hi) as FD. change (nth (Z.to_nat i) (dSizes (gDsg g)) 0) with (dataSize (gDsg g) i) in FD. destruct FD as [FD|FD]; [exfalso|congruence].
    assert (L0 : cnt (lvl i) <= nth (Z.to_nat i) (szs (pGroups p0) out) 0) by (rewrite (szs_nth _ out go i Ego), <- FEi; now apply LEo).
    assert (L1 : cnt (lvl i) <= nth (Z.to_nat i) (szs (pGroups p1) out) 0).
    { destruct (nth_error_lt (pGroups p1) out ltac:(rewrite (gInv_length _ GZ); exact HO)) as (g1 & E1). rewrite (szs_nth _ out g1 i E1). rewrite (VZ out g1 E1 i Hi). destruct (memZ i _); auto. pose proof (maxSize_ge R (szs (pGroups p0)) i out HO). lia. }
    rewrite V in FD by auto. pose proof (maxSize_ge R (szs (pGroups p1)) i out HO). destruct (memZ i is); lia.
  - intros i r c Hi NI P Nr Hc Hl. change (0 <= i < n) in Hi. rewrite TA in Hc. assert (H1 : holdsTask r i) by (exists c; auto). pose proof (fit_at E i FE Hi) as FEi. destruct FEi as [Z0|FEi]; [lia|].
    apply NI. apply SH2; auto. apply shared_pt. exists r, out. split; auto. split; [eauto|]. split; [exact HO|]. split; [rewrite GE; eauto; lia|]. rewrite (szs_nth _ out go i Ego). specialize (LEo i Hi). lia.
  - cbn [zeroExtra pExtra]. rewrite X2, XZ. apply (full_zero dim rest cnt Hcnt Hsum esz out tasks HO); auto. apply (fresh_zero dim rest cnt Hcnt Hsum esz out tasks HO); auto.
  - exact PE.
Qed.
End One.

Section Many.
Variables (dim : nat) (rest : list (list Z)).
Let levels := repeat 1 dim :: rest.
Hypothesis HL : sortedLevels dim levels.
Hypothesis HP : Forall (Forall (Z.le 1)) levels.
Let n := Z.of_nat (length levels).
Let lvl (i : Z) := nth (Z.to_nat i) levels [].
Hypothesis Hn : n < 2 ^ 31.
Variables (np : nat) (cnt : nat -> list Z -> Z).
Hypothesis Hcnt : forall p q, 0 <= cnt p q < 2 ^ 32.
Variables (esz : Z) (conf : nat -> Conf) (tasks : list (list (list (list Comp)))).
Hypothesis HS : (length tasks = 2 \/ length tasks = 3)%nat.
Hypothesis Hsum : forall p, (p < np)%nat -> zsum (map (cnt p) levels) < 2 ^ 31 - 1.
Hypothesis H3 : forall p l, (p < np)%nat -> In l levels -> 3 * cnt p l < 2 ^ 32.
Hypothesis HT : forall s ts, nth_error tasks s = Some ts -> length ts = np /\ Permutation (fOrder (conf s)) (seq 0 np) /\
  forall p gs, nth_error ts p = Some gs -> Forall (tasksOk dim (cnt p)) gs /\ (fOut (conf s) < length gs <= 256)%nat.
Hypothesis HPos : forall p, (p < np)%nat -> 0 < zsum (sharedSizes dim rest cnt tasks p).
Definition started (p : nat) (gs : list (list Comp)) (pr : Proc) : Prop := gInv dim rest (cnt p) gs (pGroups pr) /\ bounded dim rest (cnt p) gs (pGroups pr) /\ fresh dim rest (systemSizes dim rest (cnt p) (concat gs)) (pExtra pr).

Lemma startChunked_spec : exists ws, startChunked esz levels conf tasks = Some ws /\ length ws = length tasks /\
  forall s ts, nth_error tasks s = Some ts -> exists ps, nth_error ws s = Some ps /\ cInv dim rest np cnt (sharedSizes dim rest cnt tasks) (fOut (conf s)) ps /\
    forall p gs, nth_error ts p = Some gs -> exists pr, nth_error ps p = Some pr /\ map gTasks (pGroups pr) = gs.
Proof.
  unfold startChunked.
  destruct (mapO_nth (fun s (st : nat * list (list (list Comp))) ps => forall ts, nth_error tasks s = Some ts -> length ps = np /\
      forall p gs pr, nth_error ts p = Some gs -> nth_error ps p = Some pr -> started p gs pr)
     (fun st => mapO (startChunkedProc esz levels (fOut (conf (fst st)))) (snd st)) (indexed tasks)) as (ws0 & E0 & L0 & F0).
  { intros s [sx ts] Es. rewrite indexed_nth in Es. destruct (nth_error tasks s) as [tsx|] eqn:Et; [|discriminate]. injection Es as <- <-. cbn [fst snd]. destruct (HT s tsx Et) as (LT & _ & GT).
    destruct (mapO_nth (fun p gs pr => started p gs pr) (startChunkedProc esz levels (fOut (conf s))) tsx) as (ps & Ep & Lp & Fp).
    - intros p gs Eg. destruct (GT p gs Eg) as [TO OO]. assert (Hp : (p < np)%nat) by (rewrite <- LT; apply nth_error_Some; congruence). apply (startChunkedProc_spec dim rest HL HP (cnt p) (Hcnt p)); auto; lia.
    - exists ps. split; auto. intros ts Ets. injection Ets as <-. split; [lia|]. intros p gs pr Eg Epr. destruct (Fp p gs Eg) as (b & Eb & _ & Q). rewrite Epr in Eb. now injection Eb as <-. }
  rewrite E0. rewrite indexed_length in L0.
  assert (F0' : forall s ts, nth_error tasks s = Some ts -> exists ps, nth_error ws0 s = Some ps /\ length ps = np /\
      forall p gs, nth_error ts p = Some gs -> exists pr, nth_error ps p = Some pr /\ started p gs pr).
  { intros s ts Es. destruct (F0 s (s, ts)) as (ps & A & _ & B); [rewrite indexed_nth; now rewrite Es|]. destruct (B ts Es) as [Lp Fp]. exists ps. split; auto. split; auto. intros p gs Eg. destruct (HT s ts Es) as (LT & _).
    destruct (nth_error_lt ps p) as (pr & Epr); [rewrite Lp, <- LT; apply nth_error_Some; congruence|]. eauto. }
  (* the tables of sizes *)
  assert (TB : forall s ts ps, nth_error tasks s = Some ts -> nth_error ws0 s = Some ps ->
     map (fun p => dSizes (pExtra p)) ps = map (fun p => systemSizes dim rest (cnt p) (concat (nth p ts []))) (seq 0 np)).
  { intros s ts ps Es Eps. destruct (F0' s ts Es) as (psx & Ex & Lp & Fp). rewrite Eps in Ex. injection Ex as <-. destruct (HT s ts Es) as (LT & _).
    apply nth_ext with (d := []) (d' := []); [now rewrite !map_length, seq_length|]. intros p Hp. rewrite map_length, Lp in Hp. rewrite nth_map_seq by auto.
    destruct (nth_error_lt ts p ltac:(lia)) as (gs & Eg). destruct (Fp p gs Eg) as (pr & Epr & _ & _ & (_ & SZ & _)). rewrite (nth_error_nth (map (fun p => dSizes (pExtra p)) ps) p (x := dSizes (pExtra pr))) by (rewrite nth_error_map'; now rewrite Epr).
    rewrite SZ. now rewrite (nth_error_nth ts p _ Eg). }
  set (tab := fun ts => map (fun p => systemSizes dim rest (cnt p) (concat (nth p ts []))) (seq 0 np)) in *.
  assert (TT : forall ts, sizeTable np (length levels) (tab ts)).
  { intros ts. split; [unfold tab; now rewrite map_length, seq_length|]. apply Forall_forall. intros v Hv. unfold tab in Hv. apply in_map_iff in Hv. destruct Hv as (p & <- & _). unfold systemSizes. now rewrite map_length. }
  set (files := map _ (indexed ws0)).
  assert (EF : files = map (fun sw : nat * list (list (list Comp)) => Some (writeValues 0 None false (tab (snd sw)) (fOrder (conf (fst sw))))) (indexed tasks)).
  { unfold files. apply nth_ext with (d := None) (d' := None); [now rewrite !map_length, !indexed_length|]. intros s Hs. rewrite map_length, indexed_length in Hs.
    destruct (nth_error_lt ws0 s Hs) as (ps & Eps). destruct (nth_error_lt tasks s ltac:(lia)) as (ts & Es).
    rewrite !(nth_error_nth (map _ _) s (x := Some (writeValues 0 None false (tab ts) (fOrder (conf s))))); auto; rewrite nth_error_map', indexed_nth.
    - now rewrite Es.
    - rewrite Eps. cbn [fst snd]. now rewrite (TB s ts ps Es Eps). }
  clearbody files. subst files.
  destruct (mapO_nth (fun s (sw : nat * list Proc) ps' => forall ts, nth_error tasks s = Some ts -> cInv dim rest np cnt (sharedSizes dim rest cnt tasks) (fOut (conf s)) ps' /\
      forall p gs, nth_error ts p = Some gs -> exists pr, nth_error ps' p = Some pr /\ map gTasks (pGroups pr) = gs)
     (fun sw => exchangeChunked esz (length levels) (fOut (conf (fst sw))) (others (fst sw) (map (fun sw : nat * list (list (list Comp)) => Some (writeValues 0 None false (tab (snd sw)) (fOrder (conf (fst sw))))) (indexed tasks))) (snd sw)) (indexed ws0)) as (ws & E1 & L1 & F1).
  { intros s [sx ps] Es. rewrite indexed_nth in Es. destruct (nth_error ws0 s) as [psx|] eqn:Eps; [|discriminate]. injection Es as <- <-. cbn [fst snd].
    assert (Hs : (s < length tasks)%nat) by (rewrite <- L0; apply nth_error_Some; congruence). destruct (nth_error_lt tasks s Hs) as (ts & Ets).
    destruct (F0' s ts Ets) as (psy & Ey & Lp & Fp). rewrite Eps in Ey. injection Ey as <-. destruct (HT s ts Ets) as (LT & _ & GT).
    unfold exchangeChunked. set (ps1 := map (maxReduceInOutputGroup (length levels) (fOut (conf s))) psx).
    assert (P1 : forall p gs, nth_error ts p = Some gs -> exists pr, nth_error ps1 p = Some pr /\ started p gs pr).
    { intros p gs Eg. destruct (Fp p gs Eg) as (pr & Epr & SZ). destruct (GT p gs Eg) as [TO OO]. exists (maxReduceInOutputGroup (length levels) (fOut (conf s)) pr). split; [unfold ps1; rewrite nth_error_map'; now rewrite Epr|].
      destruct SZ as (A & B & C). apply (maxReduce_again dim rest HL HP (cnt p) (Hcnt p) esz (fOut (conf s)) gs TO (proj1 OO)); auto; lia. }
    assert (LP1 : length ps1 = np) by (unfold ps1; now rewrite map_length).
    assert (TB1 : map (fun p => dSizes (pExtra p)) ps1 = tab ts).
    { unfold tab. apply nth_ext with (d := []) (d' := []); [now rewrite !map_length, seq_length|]. intros p Hp. rewrite map_length, LP1 in Hp. rewrite nth_map_seq by auto.
      destruct (nth_error_lt ts p ltac:(lia)) as (gs & Eg). destruct (P1 p gs Eg) as (pr & Epr & _ & _ & (_ & SZ & _)). rewrite (nth_error_nth (map (fun p => dSizes (pExtra p)) ps1) p (x := dSizes (pExtra pr))) by (rewrite nth_error_map'; now rewrite Epr).
      rewrite SZ. now rewrite (nth_error_nth ts p _ Eg). }
    rewrite TB1. rewrite others_map. set (os := others s (indexed tasks)).
    assert (EI : nth_error (indexed tasks) s = Some (s, ts)) by (rewrite indexed_nth; now rewrite Ets).
    pose proof (others_perm s (indexed tasks) (s, ts) EI) as PM. fold os in PM.
    destruct (exchange_table np (length levels) (tab ts) (map (fun sw => (tab (snd sw), fOrder (conf (fst sw)))) os)) as (res & ER & TR & VR); auto.
    - cbn [levels length]. lia.
    - rewrite map_length. unfold os. rewrite others_length; rewrite indexed_length; lia.
    - intros w Hw. apply in_map_iff in Hw. destruct Hw as ((s' & ts') & <- & Hw). cbn [fst snd]. split; auto. unfold os in Hw. apply others_In in Hw. destruct Hw as (k & _ & Ek). rewrite indexed_nth in Ek.
      destruct (nth_error tasks k) as [tk|] eqn:Etk; [|discriminate]. injection Ek as <- <-. apply (HT k tk Etk).
    - rewrite map_map in ER. cbn [fst snd] in ER. rewrite ER.
      assert (RS : forall p, (p < np)%nat -> nth p res [] = (sharedSizes dim rest cnt tasks) p).
      { intros p Hp. apply (listZ_ext _ _ (length levels)); [apply (table_nth np (length levels)); auto|unfold sharedSizes; now rewrite map_length|]. intros i Hi. fold n in Hi.
        change (at2 0 res p (Z.to_nat i) = nth (Z.to_nat i) ((sharedSizes dim rest cnt tasks) p) 0).
        assert (AT : forall t, at2 0 (tab t) p (Z.to_nat i) = if heldIn (lvl i) (concat (nth p t [])) then cnt p (lvl i) else 0).
        { intros t. unfold at2, tab. rewrite nth_map_seq by auto. unfold systemSizes. apply (mapLv (fun l => if heldIn l (concat (nth p t [])) then cnt p l else 0) levels i Hi). }
        assert (EL : at2 0 (tab ts) p (Z.to_nat i) :: map (fun w : list (list Z) * list nat => at2 0 (fst w) p (Z.to_nat i)) (map (fun sw => (tab (snd sw), fOrder (conf (fst sw)))) os)
                   = map (fun sw : nat * list (list (list Comp)) => if heldIn (lvl i) (concat (nth p (snd sw) [])) then cnt p (lvl i) else 0) ((s, ts) :: os)).
        { cbn [map snd]. rewrite AT. f_equal. rewrite map_map. apply map_ext. intros [s' t']. cbn [fst snd]. apply AT. }
        unfold sharedSizes. change (repeat 1 dim :: rest) with levels. rewrite (mapLv (fun l => if (2 <=? holdingSystems tasks p l)%nat then cnt p l else 0) levels i Hi). change (nth (Z.to_nat i) levels []) with (lvl i).
        pose proof (Hcnt p (lvl i)) as HC. destruct (Z.eq_dec (cnt p (lvl i)) 0) as [Z0|Z0].
        - rewrite (VR p (Z.to_nat i) 1); auto; [|unfold n in Hi; lia|rewrite EL|lia].
          + rewrite EL. rewrite Z0. assert (HZ : ExchangeProps.holders (map (fun sw : nat * list (list (list Comp)) => if heldIn (lvl i) (concat (nth p (snd sw) [])) then 0 else 0) ((s, ts) :: os)) = 0%nat).
            { unfold ExchangeProps.holders. clear. induction ((s, ts) :: os) as [|x l IH]; auto. cbn [map filter]. destruct (heldIn _ _); exact IH. }
            rewrite HZ. change (2 <=? 0)%nat with false. destruct (2 <=? holdingSystems tasks p (lvl i))%nat; reflexivity.
          + split; [lia|]. rewrite Z0. apply Forall_forall. intros x Hx. apply in_map_iff in Hx. destruct Hx as (sw & <- & _). left. destruct (heldIn _ _); reflexivity.
        - rewrite (VR p (Z.to_nat i) (cnt p (lvl i))); auto; [|unfold n in Hi; lia|rewrite EL|].
          + rewrite EL. rewrite holders_count by lia. rewrite <- (Permutation_filter_length _ _ _ PM).
            assert (HH : length (filter (fun sw : nat * list (list (list Comp)) => heldIn (lvl i) (concat (nth p (snd sw) []))) (indexed tasks)) = holdingSystems tasks p (lvl i)).
            { unfold holdingSystems, indexed. clear. generalize 0%nat. induction tasks as [|t l IH]; intros a; [reflexivity|]. cbn [length seq combine filter snd]. destruct (heldIn (lvl i) (concat (nth p t []))); cbn [length]; now rewrite IH. }
            rewrite HH. reflexivity.
          + split; [lia|]. apply Forall_forall. intros x Hx. apply in_map_iff in Hx. destruct Hx as (sw & <- & _). destruct (heldIn _ _); auto.
          + apply H3; auto. unfold lvl. apply nth_In. unfold n in Hi. lia. }
      assert (LR : length res = np) by apply TR.
      eexists. split; [reflexivity|]. intros ts' Ets'. rewrite Ets in Ets'. injection Ets' as <-.
      assert (FIN : forall p gs, nth_error ts p = Some gs -> exists pr, nth_error (map (fun sp => enlargeChunked esz (length levels) (fOut (conf s)) (fst sp) (snd sp)) (combine res ps1)) p = Some pr /\ map gTasks (pGroups pr) = gs /\ exists is, chunkInv dim rest (cnt p) ((sharedSizes dim rest cnt tasks) p) (fOut (conf s)) is pr).
      { intros p gs Eg. assert (Hp : (p < np)%nat) by (rewrite <- LT; apply nth_error_Some; congruence). destruct (P1 p gs Eg) as (pr & Epr & SZ & BD & FR). destruct (GT p gs Eg) as [TO OO].
        exists (enlargeChunked esz (length levels) (fOut (conf s)) ((sharedSizes dim rest cnt tasks) p) pr). split.
        - rewrite nth_error_map'. assert (EC : nth_error (combine res ps1) p = Some ((sharedSizes dim rest cnt tasks) p, pr)).
          { rewrite (nth_error_nth' _ ([], pr)) by (rewrite combine_length, LR, LP1; lia). rewrite combine_nth by lia. now rewrite (nth_error_nth ps1 p _ Epr), RS. }
          now rewrite EC.
        - apply (enlargeChunked_spec dim rest (cnt p) (Hcnt p) (Hsum p Hp) esz (fOut (conf s)) gs TO ltac:(lia) ltac:(lia)); auto. apply shared_fit. }
      split; [split|].
      + rewrite map_length, combine_length, LR, LP1. lia.
      + intros p pr' Epr'. assert (Hp : (p < np)%nat) by (assert (X : (p < length (map (fun sp => enlargeChunked esz (length levels) (fOut (conf s)) (fst sp) (snd sp)) (combine res ps1)))%nat) by (apply nth_error_Some; congruence); rewrite map_length, combine_length in X; lia).
        destruct (nth_error_lt ts p ltac:(lia)) as (gs & Eg). destruct (FIN p gs Eg) as (pr & Epr & _ & PI). rewrite Epr' in Epr. now injection Epr as ->.
      + intros p gs Eg. destruct (FIN p gs Eg) as (pr & Epr & T & _). eauto. }
  rewrite indexed_length in L1. exists ws. split; [exact E1|]. split; [lia|]. intros s ts Es. destruct (F0' s ts Es) as (ps0 & E2 & _). destruct (F1 s (s, ps0)) as (ps & A & _ & B); [rewrite indexed_nth; now rewrite E2|].
  exists ps. split; auto.
Qed.
End Many.
