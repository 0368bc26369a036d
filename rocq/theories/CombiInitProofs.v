(** The state before the first combination step: what registering the tasks and agreeing on the sizes establishes. *)
From Verif Require Import Base TensorModel Level1dModel LevelSetsModel LevelSetsProofs SubspaceModel CombiSchemeModel Hier1dModel Hier1dProofs HierMassProofs
  DofProofs SparseGridModel SparseGridProofs CombineModel SparseTransferProofs SparseGridProps ReduceModel ReduceProofs VoteProofs SubspaceReduceProofs CombiStepModel CombiStepProofs.
From Coq Require Import QArith Qcanon.
Open Scope Z_scope.
Ltac Zify.zify_post_hook ::= idtac.

Lemma nth_error_map_seq : forall {A} (F : nat -> A) R r, nth_error (map F (seq 0 R)) r = if (r <? R)%nat then Some (F r) else None.
Proof.
  intros A F R r. destruct (Nat.ltb_spec r R) as [H|H].
  - rewrite (map_nth_error F r (seq 0 R) (d := r)); auto. rewrite (nth_error_nth' _ O) by (rewrite seq_length; lia). now rewrite seq_nth.
  - apply nth_error_None. rewrite map_length, seq_length. lia.
Qed.

Lemma zsum_map_le : forall (f g : Z -> Z) l, (forall x, In x l -> f x <= g x) -> zsum (map f l) <= zsum (map g l).
Proof.
  intros f g. induction l as [|x l IH]; intros H; [apply Z.le_refl|]. cbn [map]. change (f x + zsum (map f l) <= g x + zsum (map g l)).
  pose proof (H x (or_introl eq_refl)). specialize (IH (fun y Hy => H y (or_intror Hy))). lia.
Qed.

Section Init.
Variables (dim : nat) (rest : list (list Z)).
Let levels := repeat 1 dim :: rest.
Hypothesis HL : sortedLevels dim levels.
Hypothesis HP : Forall (Forall (Z.le 1)) levels.
Let n := Z.of_nat (length levels).
Let lvl (i : Z) := nth (Z.to_nat i) levels [].
Variable cnt : list Z -> Z.
Hypothesis Hcnt : forall q, 0 <= cnt q < 2 ^ 32.
Variables (esz : Z) (tasks : list (list Comp)).
Hypothesis HT : Forall (tasksOk dim cnt) tasks.
Let R := length tasks.
Let ts (r : nat) := nth r tasks [].

Definition holdsTask (r : nat) (i : Z) : Prop := exists c, In c (ts r) /\ containsL c (lvl i).
(** Groups [r] and another one have points of subspace [i]. *)
Definition sharedTask (r : nat) (i : Z) : Prop := 0 <= i < n /\ 0 < cnt (lvl i) /\ holdsTask r i /\ exists r', r' <> r /\ holdsTask r' i.

Definition regOk (r : nat) (d : DSG) : Prop :=
  dsgInv (length levels) d /\ chosen d = zrange 0 n /\
  (forall i, 0 <= i < n -> dataSize d i = 0 \/ dataSize d i = cnt (lvl i)) /\
  (forall i, 0 <= i < n -> holdsTask r i -> dataSize d i = cnt (lvl i)) /\
  (forall i, 0 <= i < n -> ~ holdsTask r i -> dataSize d i = 0).

Lemma ts_ok : forall r, tasksOk dim cnt (ts r).
Proof.
  intros r. unfold ts. destruct (nth_in_or_default r tasks []) as [H|H]; [rewrite Forall_forall in HT; auto|]. rewrite H. split; [constructor|intros c l []].
Qed.

Lemma init_dsgs : forall kahan : bool, exists ds, mapO (fun cs => registerAll levels cs (initDSG (length levels))) tasks = Some ds /\
  forall r, (r < R)%nat -> regOk r (dsgAt (if kahan then map (createKahanBuffer esz) ds else ds) r).
Proof.
  intros kahan. destruct (mapO_spec (fun cs d => dsgInv (length levels) d /\ chosen d = zrange 0 n /\
     (forall i, 0 <= i < n -> dataSize d i = 0 \/ dataSize d i = cnt (lvl i)) /\
     (forall i c, 0 <= i < n -> In c cs -> containsL c (lvl i) -> dataSize d i = cnt (lvl i)) /\
     (forall i, 0 <= i < n -> (forall c, In c cs -> ~ containsL c (lvl i)) -> dataSize d i = 0))
     (fun cs => registerAll levels cs (initDSG (length levels))) tasks) as (ds & E & F).
  { intros cs Hcs. rewrite Forall_forall in HT. destruct (HT cs Hcs) as [G C].
    assert (I0 : dsgInv (length levels) (initDSG (length levels))) by apply init_inv.
    assert (D0 : forall i, dataSize (initDSG (length levels)) i = 0).
    { intros i. unfold dataSize, initDSG. cbn [dSizes]. destruct (nth_in_or_default (Z.to_nat i) (repeat 0 (length levels)) 0) as [H|H]; auto. now apply repeat_spec in H. }
    destruct (registerAll_spec dim rest HL cnt cs (initDSG (length levels)) Hcnt G C I0) as (d' & E & I & W & A & _ & B & Z0); [intros i _; left; apply D0|].
    exists d'. split; auto. split; auto. split.
    - unfold chosen. rewrite W. cbn [initDSG dWith]. unfold numSubspaces. destruct I as (-> & _). reflexivity.
    - split; auto. split; [intros i c; apply B|]. intros i Hi N. rewrite Z0 by auto. apply D0. }
  exists ds. split; auto. intros r Hr. destruct (nth_error_lt tasks r Hr) as (cs & Ecs). destruct (Forall2_nth_error _ _ _ _ _ F Ecs) as (d & Ed & (I & C & A & B & Z0)).
  assert (ET : ts r = cs) by (unfold ts; now apply nth_error_nth).
  assert (RG : regOk r d).
  { split; auto. split; auto. split; auto. split.
    - intros i Hi (c & Hc & Hl). rewrite ET in Hc. now apply (B i c).
    - intros i Hi N. apply Z0; auto. intros c Hc Hl. apply N. exists c. rewrite ET. auto. }
  unfold dsgAt. destruct kahan; [|rewrite (nth_error_nth ds r _ Ed); auto].
  rewrite (nth_error_nth (map (createKahanBuffer esz) ds) r _ (map_nth_error _ _ _ Ed)). destruct RG as (_ & RG). split; [apply createKahan_inv; now apply dsgInv_data|].
  split; [|exact (proj2 RG)]. unfold chosen at 1. cbn [createKahanBuffer dWith]. rewrite C. unfold numSubspaces. cbn [createKahanBuffer dSizes]. destruct I as (-> & _). fold n.
  destruct (zrange 0 n); auto.
Qed.

Section Sizes.
Variable D : nat -> DSG.
Hypothesis HD : forall r, (r < R)%nat -> regOk r (D r).
Let sizes (r : nat) := dSizes (D r).

Lemma has_iff : forall r i, (r < R)%nat -> 0 <= i < n -> (has sizes i r = true <-> holdsTask r i /\ 0 < cnt (lvl i)).
Proof.
  intros r i Hr Hi. destruct (HD r Hr) as (_ & _ & A & B & C). unfold has. rewrite Z.gtb_lt. change (nth (Z.to_nat i) (sizes r) 0) with (dataSize (D r) i). split.
  - intros P. assert (X : dataSize (D r) i = cnt (lvl i)) by (destruct (A i Hi); [lia|auto]). split; [|lia].
    assert (DEC : holdsTask r i \/ ~ holdsTask r i).
    { destruct (existsb (fun c => vleb (lvl i) (gLevel (cGrid c))) (ts r)) eqn:E.
      - left. apply existsb_exists in E. destruct E as (c & Hc & V). exists c. split; auto. destruct (ts_ok r) as [G _]. rewrite Forall_forall in G. apply (lvl_contains dim rest HL HP c i); auto.
      - right. intros (c & Hc & Hl). assert (Y : existsb (fun c => vleb (lvl i) (gLevel (cGrid c))) (ts r) = true); [|congruence].
        apply existsb_exists. exists c. split; auto. destruct (ts_ok r) as [G _]. rewrite Forall_forall in G. apply (lvl_contains dim rest HL HP c i); auto. }
    destruct DEC as [Y|Y]; auto. rewrite (C i Hi Y) in P. lia.
  - intros [H P]. rewrite (B i Hi H). exact P.
Qed.

Lemma holdsTask_lt : forall r i, holdsTask r i -> (r < R)%nat.
Proof. intros r i (c & Hc & _). unfold ts in Hc. destruct (Nat.lt_ge_cases r (length tasks)) as [H|H]; auto. rewrite nth_overflow in Hc by auto. destruct Hc. Qed.

Lemma holders_iff : forall r i, 0 <= i < n -> (In r (holders R sizes i) <-> holdsTask r i /\ 0 < cnt (lvl i)).
Proof.
  intros r i Hi. rewrite holders_In. split.
  - intros [Hr H]. now apply has_iff.
  - intros [H P]. pose proof (holdsTask_lt r i H). split; auto. apply has_iff; auto.
Qed.

Lemma shared_iff : forall i, 0 <= i < n -> (shared R sizes i <-> exists r, sharedTask r i).
Proof.
  intros i Hi. unfold shared, sharedTask. split.
  - intros (r & r' & N & H & H'). apply holders_iff in H, H'; auto. exists r. split; auto. split; [tauto|]. split; [tauto|]. exists r'. split; [auto|tauto].
  - intros (r & _ & P & H & r' & N & H'). exists r, r'. rewrite !holders_iff by auto. auto.
Qed.

Lemma max_value : forall i, 0 <= i < n -> maxSize R sizes i = 0 \/ maxSize R sizes i = cnt (lvl i).
Proof.
  intros i Hi. rewrite (maxSize_value R sizes i (cnt (lvl i))); [destruct (existsb _ _); auto|apply Hcnt|]. intros r Hr. destruct (HD r Hr) as (_ & _ & A & _). apply (A i Hi).
Qed.
Lemma max_held : forall i r, 0 <= i < n -> holdsTask r i -> maxSize R sizes i = cnt (lvl i).
Proof.
  intros i r Hi H. pose proof (holdsTask_lt r i H) as Hr. rewrite (maxSize_value R sizes i (cnt (lvl i))); [|apply Hcnt|].
  - destruct (existsb (has sizes i) (seq 0 R)) eqn:E; auto. destruct (Z.lt_trichotomy 0 (cnt (lvl i))) as [P|[P|P]]; [|auto|pose proof (Hcnt (lvl i)); lia].
    assert (X : existsb (has sizes i) (seq 0 R) = true); [|congruence]. apply existsb_exists. exists r. split; [apply in_seq; lia|]. apply has_iff; auto.
  - intros r' Hr'. destruct (HD r' Hr') as (_ & _ & A & _). apply (A i Hi).
Qed.
End Sizes.

(** A sparse grid with new sizes and without data. *)
Definition fresh (s : list Z) (d : DSG) : Prop :=
  dsgInv (length levels) d /\ dSizes d = s /\ dLen d = 0 /\ dKLen d = 0 /\ kzero d /\ chosen d = zrange 0 n.

Lemma overwrite_fresh : forall s d, dsgInv (length levels) d -> chosen d = zrange 0 n -> length s = length levels -> Forall (fun x => 0 <= x < 2 ^ 32) s -> fresh s (overwriteSizesAndDelete s d).
Proof.
  intros s d I C L F. split; [now apply overwrite_inv|]. cbn. split; auto. split; auto. split; auto. split; [intros k _; reflexivity|].
  unfold chosen in *. cbn [overwriteSizesAndDelete deleteSubspaceData withSizes dWith]. destruct (dWith d); auto. unfold numSubspaces. cbn. now rewrite L.
Qed.
Lemma delete_fresh : forall d, dsgInv (length levels) d -> chosen d = zrange 0 n -> fresh (dSizes d) (deleteSubspaceData d).
Proof. intros d I C. split; [now apply delete_inv|]. cbn. split; auto. split; auto. split; auto. split; [intros k _; reflexivity|]. exact C. Qed.

Lemma fresh_dsgOk : forall s d, fresh s d -> zsum s < 2 ^ 31 -> dsgOk dim rest d.
Proof. intros s d (I & S & L & K & _ & C) T. split; auto. split; auto. split; [intros N; contradiction|]. split; auto. now rewrite S. Qed.

Definition sizesFit (s : list Z) : Prop := length s = length levels /\ forall i, 0 <= i < n -> nth (Z.to_nat i) s 0 = 0 \/ nth (Z.to_nat i) s 0 = cnt (lvl i).

Lemma sizesFit_sum : forall s, sizesFit s -> zsum s <= zsum (map (fun i => cnt (lvl i)) (zrange 0 n)).
Proof.
  intros s [L F]. rewrite <- (nth_zrange_sum s), L. fold n. apply zsum_map_le. intros i Hi. apply zrange_In in Hi. pose proof (Hcnt (lvl i)). destruct (F i Hi); lia.
Qed.
Lemma sizesFit_range : forall s b, sizesFit s -> 0 < b -> (forall i, 0 <= i < n -> cnt (lvl i) < b) -> Forall (fun x => 0 <= x < b) s.
Proof.
  intros s b [L F] PB B. apply Forall_forall. intros x Hx. apply (In_nth _ _ 0) in Hx. destruct Hx as (k & Hk & <-). specialize (F (Z.of_nat k) ltac:(unfold n; lia)). rewrite Nat2Z.id in F.
  pose proof (Hcnt (lvl (Z.of_nat k))). specialize (B (Z.of_nat k) ltac:(unfold n; lia)). destruct F; lia.
Qed.

(** ** The groups *)
Section Groups.
Variables (dsg : nat -> DSG) (cm : nat -> list (list nat * list Z)).
Let gs := map (fun r => {| gTasks := ts r; gDsg := dsg r; gComms := cm r |}) (seq 0 R).

Lemma gs_length : length gs = R.
Proof. unfold gs. now rewrite map_length, seq_length. Qed.
Lemma gs_nth : forall r, nth_error gs r = if (r <? R)%nat then Some {| gTasks := ts r; gDsg := dsg r; gComms := cm r |} else None.
Proof. intros r. apply (nth_error_map_seq (fun r => {| gTasks := ts r; gDsg := dsg r; gComms := cm r |})). Qed.
Lemma gs_tasks : forall r, tasksAt gs r = ts r.
Proof. intros r. unfold tasksAt. rewrite gs_nth. destruct (Nat.ltb_spec r R) as [H|H]; auto. unfold ts. symmetry. now apply nth_overflow. Qed.
Lemma gs_comms : forall r, commsAt gs r = if (r <? R)%nat then cm r else [].
Proof. intros r. unfold commsAt. rewrite gs_nth. now destruct (Nat.ltb_spec r R). Qed.
Lemma gs_size : forall r i, (r < R)%nat -> sizeAt gs r i = dataSize (dsg r) i.
Proof. intros r i H. unfold sizeAt. rewrite gs_nth. now destruct (Nat.ltb_spec r R); [|lia]. Qed.
Lemma gs_comms_In : forall r M is, In (M, is) (commsAt gs r) -> (r < R)%nat /\ In (M, is) (cm r).
Proof. intros r M is H. rewrite gs_comms in H. destruct (Nat.ltb_spec r R); [auto|destruct H]. Qed.
Lemma gs_all : map gTasks gs = tasks.
Proof. unfold gs. rewrite map_map. cbn [gTasks]. apply nth_seq_map. Qed.
Lemma holdsTask_In : forall r i c, In c (tasksAt gs r) -> containsL c (lvl i) -> holdsTask r i.
Proof. intros r i c Hc Hl. rewrite gs_tasks in Hc. exists c. auto. Qed.

Lemma gs_Forall : forall Q : Group -> Prop, (forall r, (r < R)%nat -> Q {| gTasks := ts r; gDsg := dsg r; gComms := cm r |}) -> Forall Q gs.
Proof. intros Q H. apply Forall_forall. intros g Hg. unfold gs in Hg. apply in_map_iff in Hg. destruct Hg as (r & <- & Hr). apply in_seq in Hr. apply H. lia. Qed.
End Groups.

(** All groups have the same sizes (sparse grid reduce). *)
Lemma init_sparseGrid : zsum (map (fun i => cnt (lvl i)) (zrange 0 n)) < 2 ^ 31 ->
  exists gs, initGroups VSparseGrid esz levels tasks = Some gs /\ map gTasks gs = tasks /\ Forall (groupOk dim rest cnt) gs /\ sameSizes gs.
Proof.
  intros T. destruct (init_dsgs true) as (ds & E & F). unfold initGroups. rewrite E. eexists. split; [reflexivity|].
  set (D := dsgAt (map (createKahanBuffer esz) ds)) in *. fold R. fold n.
  set (dsg := fun r => overwriteSizesAndDelete (map (maxSize R (fun r => dSizes (D r))) (zrange 0 n)) (D r)).
  change (map _ (seq 0 R)) with (map (fun r => {| gTasks := ts r; gDsg := dsg r; gComms := [] |}) (seq 0 R)).
  split; [apply gs_all|].
  set (ms := map (maxSize R (fun r => dSizes (D r))) (zrange 0 n)) in *.
  assert (NM : forall i, 0 <= i < n -> nth (Z.to_nat i) ms 0 = maxSize R (fun r => dSizes (D r)) i).
  { intros i Hi. unfold ms. rewrite (nth_indep _ 0 (maxSize R (fun r => dSizes (D r)) 0)) by (rewrite map_length, zrange_length; lia). rewrite map_nth. f_equal.
    unfold zrange. rewrite zseq_nth by lia. lia. }
  assert (SF : sizesFit ms).
  { split; [unfold ms; rewrite map_length, zrange_length; unfold n; lia|]. intros i Hi. rewrite NM by auto. apply max_value; auto. }
  pose proof (sizesFit_sum ms SF) as TS.
  assert (FR : forall r, (r < R)%nat -> fresh ms (dsg r)).
  { intros r Hr. destruct (F r Hr) as (I & C & _). apply overwrite_fresh; auto; [apply SF|]. apply (sizesFit_range ms _ SF); [lia|]. intros i Hi. apply Hcnt. }
  split.
  - apply gs_Forall. intros r Hr. destruct (FR r Hr) as (I & S & X). split; [apply ts_ok|]. split; [apply (fresh_dsgOk ms); [split; auto|lia]|].
    intros c i Hc Hi Hl. cbn [gTasks gDsg] in *. unfold dataSize. rewrite S, NM by auto. apply (max_held D F i r); auto. exists c. auto.
  - intros r r' g g' Eg Eg'. rewrite gs_nth in Eg, Eg'. destruct (Nat.ltb_spec r R); [|discriminate]. destruct (Nat.ltb_spec r' R); [|discriminate].
    injection Eg as <-. injection Eg' as <-. reflexivity.
Qed.

Lemma init_subspace : zsum (map (fun i => cnt (lvl i)) (zrange 0 n)) < 2 ^ 31 -> (R <= 256)%nat ->
  exists gs, initGroups VSubspace esz levels tasks = Some gs /\ map gTasks gs = tasks /\ Forall (groupOk dim rest cnt) gs /\ commsOk dim rest cnt gs.
Proof.
  intros T HR. destruct (init_dsgs true) as (ds & E & F). unfold initGroups. rewrite E. eexists. split; [reflexivity|].
  set (D := dsgAt (map (createKahanBuffer esz) ds)) in *. fold R.
  set (dsg := fun r => deleteSubspaceData (D r)). set (cm := subspaceCommunicators (length levels) R (fun r => dSizes (D r))).
  change (map _ (seq 0 R)) with (map (fun r => {| gTasks := ts r; gDsg := dsg r; gComms := cm r |}) (seq 0 R)).
  split; [apply gs_all|]. set (gs := map _ (seq 0 R)).
  assert (SF : forall r, (r < R)%nat -> sizesFit (dSizes (D r))).
  { intros r Hr. destruct (F r Hr) as ((L & _) & _ & A & _). split; auto. }
  split.
  - apply gs_Forall. intros r Hr. destruct (F r Hr) as (I & C & A & B & _). split; [apply ts_ok|]. split.
    + apply (fresh_dsgOk (dSizes (D r))); [apply delete_fresh; auto|]. pose proof (sizesFit_sum _ (SF r Hr)). lia.
    + intros c i Hc Hi Hl. apply (B i Hi). exists c. auto.
  - pose proof (holders_iff D F) as HH.
    assert (CE : forall r M is, In (M, is) (commsAt gs r) -> (r < R)%nat /\ In (M, is) (cm r) /\ In r M /\ is <> [] /\ StronglySorted Z.lt is /\
       (forall i, In i is <-> 0 <= i < n /\ shared R (fun r => dSizes (D r)) i /\ holders R (fun r => dSizes (D r)) i = M)).
    { intros r M is H. apply gs_comms_In in H. destruct H as [Hr H]. split; auto. split; auto. exact (comms_entry _ _ _ _ _ _ HR H). }
    split; [|split; [|split; [|split; [|split; [|split]]]]].
    + intros r M is H. destruct (CE r M is H) as (_ & _ & _ & _ & S & X). split; auto. intros i Hi. now apply X in Hi.
    + intros r. unfold gs. rewrite gs_comms. destruct (r <? R)%nat; [exact (comms_NoDup _ _ _ _ HR)|constructor].
    + intros r M is M' is' i H H' Hi Hi'. destruct (CE r M is H) as (_ & _ & _ & _ & _ & X). destruct (CE r M' is' H') as (_ & _ & _ & _ & _ & X').
      apply X in Hi. apply X' in Hi'. destruct Hi as (_ & _ & <-), Hi' as (_ & _ & <-). reflexivity.
    + intros r M is H. destruct (CE r M is H) as (Hr & H0 & IM & NE & S & X). split; auto. intros r' Hr'.
      assert (LR : (r' < R)%nat).
      { destruct is as [|i is]; [contradiction|]. destruct (proj1 (X i) (or_introl eq_refl)) as (_ & _ & HM). rewrite <- HM in Hr'. apply holders_In in Hr'. tauto. }
      split.
      * unfold gs. rewrite gs_comms. destruct (Nat.ltb_spec r' R); [|lia]. apply (comms_In _ _ _ _ _ _ HR) in H0. apply (comms_In _ _ _ _ _ _ HR). split; [exact Hr'|exact (proj2 H0)].
      * intros i Hi. apply X in Hi. destruct Hi as (Hn & _ & HM). unfold gs. rewrite !gs_size by auto. rewrite <- HM in IM, Hr'. apply HH in IM, Hr'; auto.
        destruct (F r Hr) as (_ & _ & _ & B & _). destruct (F r' LR) as (_ & _ & _ & B' & _).
        change (dataSize (D r') i = dataSize (D r) i). rewrite B, B'; tauto.
    + intros r M is H. destruct (CE r M is H) as (Hr & H0 & IM & NE & S & X). destruct is as [|i is]; [contradiction|]. destruct (proj1 (X i) (or_introl eq_refl)) as (_ & _ & HM).
      exists (has (fun r => dSizes (D r)) i). unfold gs. rewrite gs_length. symmetry. exact HM.
    + intros r M is i r' c H Hi N Hc Hl. destruct (CE r M is H) as (Hr & H0 & IM & _ & _ & X). apply X in Hi. destruct Hi as (Hn & _ & HM). apply N. rewrite <- HM. apply HH; auto.
      rewrite <- HM in IM. apply HH in IM; auto. split; [|tauto]. eapply holdsTask_In; eauto.
    + intros r i r' c c0 Hi NO Nr Hc0 Hl0 P Hc Hl.
      pose proof (holdsTask_In _ _ _ _ _ Hc0 Hl0) as H0. pose proof (holdsTask_In _ _ _ _ _ Hc Hl) as H1. pose proof (holdsTask_lt r i H0) as Hr.
      assert (IH : In r (holders R (fun r => dSizes (D r)) i)) by (apply HH; auto).
      destruct (comms_exists (length levels) R (fun r => dSizes (D r)) r i HR Hi) as (is & A & B); [|exact IH|].
      { exists r, r'. split; [auto|]. split; [exact IH|]. apply HH; auto. }
      apply (NO (holders R (fun r => dSizes (D r)) i) is) in B; [exact B|]. unfold gs. rewrite gs_comms. destruct (Nat.ltb_spec r R); [exact A|lia].
Qed.

(** Every group shares a subspace with another one, or no group does. *)
Definition outgroupJoined : Prop := (forall r, (r < R)%nat -> exists i, sharedTask r i) \/ (forall r i, ~ sharedTask r i).

Lemma outgroup_common : forall D, (forall r, (r < R)%nat -> regOk r (D r)) -> (R <= 256)%nat -> outgroupJoined ->
  let sizes := fun r => dSizes (D r) in let is := subspacesForMany (length levels) R sizes in
  let dsg := fun r => overwriteSizesAndDelete (outgroupSizes (length levels) R sizes r) (D r) in
  (forall i, In i is <-> 0 <= i < n /\ exists r, sharedTask r i) /\ StronglySorted Z.lt is /\
  (forall r, (r < R)%nat -> (outgroupCommunicator (length levels) R sizes r = [] /\ is = []) \/ (outgroupCommunicator (length levels) R sizes r = [(seq 0 R, is)] /\ is <> [])) /\
  (forall r, (r < R)%nat -> fresh (outgroupSizes (length levels) R sizes r) (dsg r) /\ sizesFit (outgroupSizes (length levels) R sizes r)) /\
  (forall r r' i, (r < R)%nat -> (r' < R)%nat -> In i is -> dataSize (dsg r) i = dataSize (dsg r') i) /\
  (forall r i, (r < R)%nat -> 0 <= i < n -> holdsTask r i -> dataSize (dsg r) i = cnt (lvl i)).
Proof.
  intros D F HR J sizes is dsg.
  assert (IS : forall i, In i is <-> 0 <= i < n /\ exists r, sharedTask r i).
  { intros i. unfold is. rewrite forMany_In. fold n. split; intros [A B]; (split; [exact A|]); now apply (shared_iff D F i A). }
  assert (NS : forall r i, 0 <= i < n -> nth (Z.to_nat i) (outgroupSizes (length levels) R sizes r) 0 = if memZ i is then maxSize R sizes i else dataSize (D r) i).
  { intros r i Hi. unfold outgroupSizes. fold n. rewrite (nth_indep _ 0 ((fun i => if memZ i (subspacesForMany (length levels) R sizes) then maxSize R sizes i else nth (Z.to_nat i) (sizes r) 0) 0)) by (rewrite map_length, zrange_length; lia).
    rewrite (map_nth (fun i => if memZ i (subspacesForMany (length levels) R sizes) then maxSize R sizes i else nth (Z.to_nat i) (sizes r) 0)).
    assert (X : nth (Z.to_nat i) (zrange 0 n) 0 = i) by (unfold zrange; rewrite zseq_nth by lia; lia). rewrite X. reflexivity. }
  assert (SF : forall r, (r < R)%nat -> sizesFit (outgroupSizes (length levels) R sizes r)).
  { intros r Hr. split; [unfold outgroupSizes; rewrite map_length, zrange_length; lia|]. intros i Hi. rewrite NS by auto. destruct (memZ i is); [apply (max_value D F i Hi)|].
    destruct (F r Hr) as (_ & _ & A & _). apply (A i Hi). }
  split; [exact IS|]. split; [apply sorted_filter, zrange_sorted|]. split.
  - intros r Hr. unfold outgroupCommunicator. fold is. destruct (memN r (ranksOf (manyGroups (length levels) R sizes))) eqn:EM.
    + right. split; auto. apply memN_In in EM. apply (manyGroups_In _ _ _ _ HR) in EM. destruct EM as (i & Hi & Sh & _). intros Z0. assert (X : In i is) by (apply forMany_In; auto). rewrite Z0 in X. destruct X.
    + left. split; auto. destruct J as [J|J].
      * destruct (J r Hr) as (i & Hs). assert (X : memN r (ranksOf (manyGroups (length levels) R sizes)) = true); [|congruence]. apply memN_In. apply (manyGroups_In _ _ _ _ HR).
        pose proof Hs as (Hi & P & H0 & _). exists i. split; [exact Hi|]. split; [apply (shared_iff D F i Hi); eauto|]. apply (holders_iff D F r i Hi). auto.
      * destruct is as [|i is'] eqn:EI; auto. destruct (proj1 (IS i) (or_introl eq_refl)) as (_ & r0 & X). destruct (J r0 i X).
  - split; [|split].
    + intros r Hr. split; [|now apply SF]. destruct (F r Hr) as (I & C & _). apply overwrite_fresh; auto; [apply SF; auto|]. apply (sizesFit_range _ _ (SF r Hr)); [lia|]. intros i Hi. apply Hcnt.
    + intros r r' i Hr Hr' Hi. pose proof (proj1 (IS i) Hi) as [Hn _]. unfold dsg, dataSize. cbn [overwriteSizesAndDelete deleteSubspaceData withSizes dSizes]. rewrite !NS by auto.
      rewrite (proj2 (memZ_In i is) Hi). reflexivity.
    + intros r i Hr Hi H. unfold dsg, dataSize. cbn [overwriteSizesAndDelete deleteSubspaceData withSizes dSizes]. rewrite NS by auto.
      destruct (memZ i is); [now apply (max_held D F i r)|]. destruct (F r Hr) as (_ & _ & _ & B & _). now apply B.
Qed.

Lemma init_outgroup : zsum (map (fun i => cnt (lvl i)) (zrange 0 n)) < 2 ^ 31 -> (R <= 256)%nat -> outgroupJoined ->
  exists gs, initGroups VOutgroup esz levels tasks = Some gs /\ map gTasks gs = tasks /\ Forall (groupOk dim rest cnt) gs /\ commsOk dim rest cnt gs.
Proof.
  intros T HR J. destruct (init_dsgs true) as (ds & E & F). unfold initGroups. rewrite E. eexists. split; [reflexivity|].
  set (D := dsgAt (map (createKahanBuffer esz) ds)) in *. fold R.
  destruct (outgroup_common D F HR J) as (IS & SS & CM & FR & AG & SZ).
  set (dsg := fun r => overwriteSizesAndDelete (outgroupSizes (length levels) R (fun r => dSizes (D r)) r) (D r)) in *.
  set (cm := outgroupCommunicator (length levels) R (fun r => dSizes (D r))) in *. set (is0 := subspacesForMany (length levels) R (fun r => dSizes (D r))) in *.
  change (map _ (seq 0 R)) with (map (fun r => {| gTasks := ts r; gDsg := dsg r; gComms := cm r |}) (seq 0 R)).
  split; [apply gs_all|]. set (gs := map _ (seq 0 R)).
  assert (CE : forall r M is, In (M, is) (commsAt gs r) -> (r < R)%nat /\ M = seq 0 R /\ is = is0 /\ is0 <> []).
  { intros r M is H. apply gs_comms_In in H. destruct H as [Hr H]. split; auto. destruct (CM r Hr) as [[X _]|[X Y]]; rewrite X in H; [destruct H|]. destruct H as [H|[]]. injection H as <- <-. auto. }
  assert (CI : forall r, (r < R)%nat -> is0 <> [] -> commsAt gs r = [(seq 0 R, is0)]).
  { intros r Hr N. unfold gs. rewrite gs_comms. destruct (Nat.ltb_spec r R); [|lia]. destruct (CM r Hr) as [[_ X]|[X _]]; [contradiction|exact X]. }
  split.
  - apply gs_Forall. intros r Hr. destruct (FR r Hr) as [Fr SF]. split; [apply ts_ok|]. split.
    + apply (fresh_dsgOk _ _ Fr). pose proof (sizesFit_sum _ SF). lia.
    + intros c i Hc Hi Hl. apply SZ; auto. exists c. auto.
  - split; [|split; [|split; [|split; [|split; [|split]]]]].
    + intros r M is H. destruct (CE r M is H) as (_ & _ & -> & _). split; auto. intros i Hi. now apply IS in Hi.
    + intros r. unfold gs. rewrite gs_comms. destruct (Nat.ltb_spec r R) as [Hr|_]; [|constructor]. destruct (CM r Hr) as [[-> _]|[-> _]]; repeat constructor. intros [].
    + intros r M is M' is' i H H' _ _. destruct (CE r M is H) as (_ & -> & _), (CE r M' is' H') as (_ & -> & _). reflexivity.
    + intros r M is H. destruct (CE r M is H) as (Hr & -> & -> & NE). split; [apply in_seq; lia|]. intros r' Hr'. apply in_seq in Hr'. split.
      * rewrite (CI r') by (auto; lia). now left.
      * intros i Hi. unfold gs. rewrite !gs_size by lia. apply AG; auto; lia.
    + intros r M is H. destruct (CE r M is H) as (Hr & -> & _). exists (fun _ => true). unfold gs. rewrite gs_length. clear. induction (seq 0 R); auto. cbn. now f_equal.
    + intros r M is i r' c H _ N Hc Hl. destruct (CE r M is H) as (_ & -> & _). apply N. apply in_seq. pose proof (holdsTask_lt r' i (holdsTask_In _ _ _ _ _ Hc Hl)). lia.
    + intros r i r' c c0 Hi NO Nr Hc0 Hl0 P Hc Hl.
      pose proof (holdsTask_In _ _ _ _ _ Hc0 Hl0) as H0. pose proof (holdsTask_In _ _ _ _ _ Hc Hl) as H1. pose proof (holdsTask_lt r i H0) as Hr.
      assert (II : In i is0) by (apply IS; split; auto; exists r; split; auto; split; auto; split; auto; exists r'; auto).
      apply (NO (seq 0 R) is0); auto. rewrite CI; auto; [now left|]. intros Z0. rewrite Z0 in II. destruct II.
Qed.

Lemma init_chunked : (forall i, 0 <= i < n -> cnt (lvl i) < 2 ^ 31) -> (R <= 256)%nat -> outgroupJoined ->
  exists gs is, initGroups VChunkedOutgroup esz levels tasks = Some gs /\ map gTasks gs = tasks /\ Forall (chunkGroupOk dim rest cnt) gs /\ chunkedOk dim rest cnt gs is.
Proof.
  intros T HR J. destruct (init_dsgs false) as (ds & E & F). unfold initGroups. rewrite E. cbv zeta.
  set (D := dsgAt ds) in *. fold R.
  destruct (outgroup_common D F HR J) as (IS & SS & CM & FR & AG & SZ).
  set (dsg := fun r => overwriteSizesAndDelete (outgroupSizes (length levels) R (fun r => dSizes (D r)) r) (D r)) in *.
  set (cm := outgroupCommunicator (length levels) R (fun r => dSizes (D r))) in *. set (is0 := subspacesForMany (length levels) R (fun r => dSizes (D r))) in *.
  change (map _ (seq 0 R)) with (map (fun r => {| gTasks := ts r; gDsg := dsg r; gComms := cm r |}) (seq 0 R)).
  eexists. exists is0. split; [reflexivity|].
  split; [apply gs_all|]. set (gs := map _ (seq 0 R)).
  split.
  - apply gs_Forall. intros r Hr. destruct (FR r Hr) as [Fr SF]. destruct Fr as (I & S & L & K & KZ & C). split; [apply ts_ok|]. cbn [gDsg gTasks]. split; auto. split; auto. split.
    + intros c i Hc Hi Hl. apply SZ; auto. exists c. auto.
    + assert (S' : dSizes (dsg r) = outgroupSizes (length levels) R (fun r => dSizes (D r)) r) by exact S. rewrite S'. eapply Forall_impl; [|apply (sizesFit_range _ (2 ^ 31) SF); [lia|exact T]]. cbv beta. intros; lia.
  - split; [split; [exact SS|intros i Hi; now apply IS in Hi]|]. split.
    + apply Forall_forall. apply gs_Forall. intros r Hr. cbn [gComms]. destruct (CM r Hr) as [H|[H _]]; [now left|right; eauto].
    + split.
      * intros g g' i Hg Hg' Hi. unfold gs in Hg, Hg'. apply in_map_iff in Hg, Hg'. destruct Hg as (r & <- & Hr), Hg' as (r' & <- & Hr'). apply in_seq in Hr, Hr'. apply AG; auto; lia.
      * intros r r' c c0 i Hi NI Nr Hc0 Hl0 P Hc Hl. apply NI. apply IS. split; auto. exists r. split; auto. split; auto. split; [eapply holdsTask_In; eauto|]. exists r'. split; auto. eapply holdsTask_In; eauto.
Qed.
End Init.
