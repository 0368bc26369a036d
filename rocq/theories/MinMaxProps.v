(** C108: the report of the extreme coefficients per subspace. *)
From Verif Require Import Base TensorModel TensorProofs SparseGridModel SparseGridProofs SparseGridProps MinMaxModel MinMaxProofs.
From Coq Require Import QArith Qcanon.
Open Scope Z_scope.
Ltac Zify.zify_post_hook ::= idtac.

(** Which lines a report called by the workers contains, and that its minima are right: after any sequence of collections,
    changes and reports on all processes, the report has exactly one line for every subspace that has a value (below the largest
    double) on some process of some group, and none for the others; the minimum of the line is the least value of the subspace
    on all processes, among the states collected since the last report (or the present one, if none was collected). *)
Theorem C108_report : forall levels nG nP ops s fs, (0 < nG)%nat -> (0 < nP)%nat -> NoDup levels -> Forall (opFits (length levels)) ops ->
  runMinMax levels nG nP (ops ++ [MWrite ByWorkers]) (startMinMax (length levels)) = Some (s, fs) ->
  exists fs' file, fs = fs' ++ [Some file] /\
    NoDup (map (fun x => fst (fst x)) file) /\
    (forall l mn mx, In (l, mn, mx) file -> In l levels) /\
    forall i, (i < length levels)%nat -> let V := reportedValues nG nP (length levels) ops i in
      ((exists mn mx, In (nth i levels [], mn, mx) file) <-> exists v, In v V /\ (v < dblMax)%Qc) /\
      (forall mn mx, In (nth i levels [], mn, mx) file -> isMin mn V).
Proof.
  intros levels nG nP ops s fs HG HP ND HO E. rewrite run_app in E.
  destruct (runMinMax levels nG nP ops (startMinMax (length levels))) as [[s1 f1]|] eqn:E1; [|discriminate]. cbn [runMinMax stepMinMax] in E.
  destruct (writeMinMax levels nG nP ByWorkers s1) as [[s2 f2]|] eqn:E2; [|discriminate]. injection E as _ <-.
  assert (HI : historyInv nP (fun g p => collectedSince nG ops g p []) (fun g p => heldLast ops g p (initDSG (length levels))) s1).
  { apply (run_history levels nG nP ops (startMinMax (length levels)) s1 f1 (fun _ _ => []) (fun _ _ => initDSG (length levels))); auto.
    intros g p _. split; reflexivity. }
  destruct (write_extremes levels nG nP ops s1 s2 f2 (length levels) HG HP HO HI E2) as (m & -> & (L1 & L2 & X)).
  exists f1, (minMaxLines levels m). cbn [app]. split; auto. split; [apply minMaxLines_NoDup; auto|]. split.
  { intros l mn mx H. apply minMaxLines_In in H. destruct H as (i & Hi & -> & _). apply nth_In. auto. }
  intros i Hi. set (V := reportedValues nG nP (length levels) ops i). destruct (X i Hi) as [[X1 X2] _]. fold V in X1, X2.
  assert (K : forall mn mx, In (nth i levels [], mn, mx) (minMaxLines levels m) -> mn = nth i (fst m) 0%Qc /\ (mn < dblMax)%Qc).
  { intros mn mx H. apply minMaxLines_In in H. destruct H as (k & Hk & El & -> & _ & L).
    assert (k = i) by (apply (proj1 (NoDup_nth levels []) ND); auto). subst k. auto. }
  split.
  - split.
    + intros (mn & mx & H). destruct (K _ _ H) as [-> L]. destruct X1 as [X1|X1]; [rewrite <- X1 in L; exfalso; now apply Qclt_not_eq in L|eauto].
    + intros (v & Hv & L). exists (nth i (fst m) 0%Qc), (nth i (snd m) 0%Qc). apply minMaxLines_In. exists i.
      repeat (split; [now auto|]). eapply Qcle_lt_trans; [apply X2; right; exact Hv|exact L].
  - intros mn mx H. destruct (K _ _ H) as [-> L]. destruct X1 as [X1|X1]; [rewrite <- X1 in L; exfalso; now apply Qclt_not_eq in L|].
    split; auto. intros x Hx. apply X2. now right.
Qed.

(** The maxima are right only if the subspace has a value of at least the smallest positive normal number; otherwise that number
    is reported (missing: the maximum of such subspaces, see [C108_max_refuted]). *)
Theorem C108_max_partial : forall levels nG nP ops s fs, (0 < nG)%nat -> (0 < nP)%nat -> NoDup levels -> Forall (opFits (length levels)) ops ->
  runMinMax levels nG nP (ops ++ [MWrite ByWorkers]) (startMinMax (length levels)) = Some (s, fs) ->
  exists fs' file, fs = fs' ++ [Some file] /\
    forall i mn mx, (i < length levels)%nat -> In (nth i levels [], mn, mx) file ->
      let V := reportedValues nG nP (length levels) ops i in
      ((exists x, In x V /\ (dblMin <= x)%Qc) -> isMax mx V) /\ ((forall x, In x V -> (x < dblMin)%Qc) -> mx = dblMin).
Proof.
  intros levels nG nP ops s fs HG HP ND HO E. rewrite run_app in E.
  destruct (runMinMax levels nG nP ops (startMinMax (length levels))) as [[s1 f1]|] eqn:E1; [|discriminate]. cbn [runMinMax stepMinMax] in E.
  destruct (writeMinMax levels nG nP ByWorkers s1) as [[s2 f2]|] eqn:E2; [|discriminate]. injection E as _ <-.
  assert (HI : historyInv nP (fun g p => collectedSince nG ops g p []) (fun g p => heldLast ops g p (initDSG (length levels))) s1).
  { apply (run_history levels nG nP ops (startMinMax (length levels)) s1 f1 (fun _ _ => []) (fun _ _ => initDSG (length levels))); auto.
    intros g p _. split; reflexivity. }
  destruct (write_extremes levels nG nP ops s1 s2 f2 (length levels) HG HP HO HI E2) as (m & -> & (L1 & L2 & X)).
  exists f1, (minMaxLines levels m). cbn [app]. split; auto. intros i mn mx Hi H. set (V := reportedValues nG nP (length levels) ops i).
  apply minMaxLines_In in H. destruct H as (k & Hk & El & _ & -> & _).
  assert (k = i) by (apply (proj1 (NoDup_nth levels []) ND); auto). subst k.
  destruct (X i Hi) as [_ [X1 X2]]. fold V in X1, X2. split.
  - intros (x & Hx & Lx). split; [|intros y Hy; apply X2; now right]. destruct X1 as [X1|X1]; auto.
    assert (Y : x = nth i (snd m) 0%Qc); [|now rewrite <- Y].
    apply Qcle_antisym; [apply X2; now right|]. rewrite <- X1. exact Lx.
  - intros HV. destruct X1 as [X1|X1]; [congruence|]. exfalso. specialize (HV _ X1). specialize (X2 dblMin (or_introl eq_refl)).
    exact (Qclt_not_le _ _ HV X2).
Qed.

(** When the data of a sparse grid may be read. *)
Definition holdsItsData (d : DSG) : Prop := forall i, In i (dWith d) -> 0 < dataSize d i -> nth (Z.to_nat i) (dPtr d) None <> None.

Lemma readsNull_false : forall d, readsNull d = false <-> holdsItsData d.
Proof.
  intros d. unfold readsNull, holdsItsData. rewrite <- Bool.not_true_iff_false, existsb_exists. split.
  - intros H i Hi Hs N. apply H. exists i. split; auto. rewrite N. apply andb_true_iff. split; auto. rewrite Z.gtb_lt. lia.
  - intros H (i & Hi & X). apply andb_true_iff in X. destruct X as [X1 X2]. rewrite Z.gtb_lt in X1. specialize (H i Hi X1).
    destruct (nth _ _ _); [discriminate|congruence].
Qed.

(** A report may be requested exactly if every process that takes part has collected since its last report or still holds the
    data of its sparse grid. *)
Theorem C108_defined : forall levels nG nP ops c s fs,
  runMinMax levels nG nP ops (startMinMax (length levels)) = Some (s, fs) ->
  ((exists r, runMinMax levels nG nP (ops ++ [MWrite c]) (startMinMax (length levels)) = Some r) <->
   forall g p, enters nG c g = true -> (p < nP)%nat ->
     collectedSince nG ops g p [] <> [] \/ holdsItsData (heldLast ops g p (initDSG (length levels)))).
Proof.
  intros levels nG nP ops c s fs E.
  assert (HI : historyInv nP (fun g p => collectedSince nG ops g p []) (fun g p => heldLast ops g p (initDSG (length levels))) s).
  { apply (run_history levels nG nP ops (startMinMax (length levels)) s fs (fun _ _ => []) (fun _ _ => initDSG (length levels))); auto.
    intros g p _. split; reflexivity. }
  rewrite run_app, E. cbn [runMinMax stepMinMax].
  transitivity (exists r, writeMinMax levels nG nP c s = Some r).
  { destruct (writeMinMax levels nG nP c s) as [[s2 f2]|]; split; intros [r X]; try discriminate; eauto. }
  rewrite write_defined.
  assert (K : forall g p, (p < nP)%nat -> (ensureCollected (s g p) <> None <->
    collectedSince nG ops g p [] <> [] \/ holdsItsData (heldLast ops g p (initDSG (length levels))))).
  { intros g p Hp. destruct (HI g p Hp) as [H1 H2]. unfold ensureCollected. rewrite H1.
    destruct (collectedSince nG ops g p []) as [|d l] eqn:C.
    - cbn [minMaxHistory]. unfold accumulateProc. rewrite H2, <- readsNull_false. destruct (readsNull _); cbn [mAcc].
      + split; [congruence|]. intros [X|X]; [congruence|discriminate].
      + split; [now right|discriminate].
    - destruct (history_nonempty (d :: l)) as [m Hm]; [discriminate|]. rewrite Hm. split; [left; discriminate|discriminate]. }
  split; intros H g p Hg Hp; apply K; auto.
Qed.

(** Called through the manager, the report of a system of one group is that of the workers. *)
Theorem C108_manager_one_group : forall levels nP s, writeMinMax levels 1 nP ByManager s = writeMinMax levels 1 nP ByWorkers s.
Proof. reflexivity. Qed.

(** Called through the manager in a system of several groups, there never is a file: only the last group takes part. *)
Theorem C108_manager_no_file : forall levels nG nP ops s fs, (1 < nG)%nat ->
  runMinMax levels nG nP (ops ++ [MWrite ByManager]) (startMinMax (length levels)) = Some (s, fs) ->
  exists fs', fs = fs' ++ [None].
Proof.
  intros levels nG nP ops s fs HG E. rewrite run_app in E.
  destruct (runMinMax levels nG nP ops _) as [[s1 f1]|]; [|discriminate]. cbn [runMinMax stepMinMax] in E.
  destruct (writeMinMax levels nG nP ByManager s1) as [[s2 f2]|] eqn:E2; [|discriminate]. injection E as _ <-.
  exists f1. cbn [app]. f_equal. f_equal. unfold writeMinMax in E2. destruct (allSome _); [|discriminate]. injection E2 as _ <-.
  destruct nG as [|[|k]]; try lia. reflexivity.
Qed.

(** Two groups of two processes and two subspaces. Subspace 0: two coefficients on every process; subspace 1: one. *)
Definition exLevels108 : list (list Z) := [[1; 1]; [1; 2]].
Definition exGrid108 (a b c : Z) : DSG :=
  fold_left (runOp 8) [OpSetSize 0 2; OpSetSize 1 1; OpCreate; OpWrite 0 (Q2Qc (a # 1)); OpWrite 1 (Q2Qc (b # 1)); OpWrite 2 (Q2Qc (c # 1))] (initDSG 2).
Definition exDeleted108 : DSG := runOp 8 (exGrid108 1 2 3) OpDelete.
Definition exOps108 : list MOp :=
  [MCollect 0 0 (exGrid108 3 5 (-7)); MCollect 0 1 (exGrid108 4 (-2) (-9)); MCollect 1 0 (exGrid108 3 5 (-7));
   MCollect 1 1 (exGrid108 4 (-2) (-9)); MCollect 1 1 (exGrid108 12 6 (-4)); MStore 0 0 exDeleted108; MStore 1 1 exDeleted108].

Lemma exFits108 : forall a b c, fits 2 (exGrid108 a b c).
Proof.
  intros a b c. split; [reflexivity|]. split.
  - change (dWith (exGrid108 a b c)) with [0; 1]. repeat constructor; lia.
  - change (dWith (exGrid108 a b c)) with [0; 1]. intros i [<-|[<-|[]]]; cbn; lia.
Qed.
Lemma exDeletedFits108 : fits 2 exDeleted108.
Proof.
  split; [reflexivity|]. change (dWith exDeleted108) with [0; 1]. split; [repeat constructor; lia|].
  intros i [<-|[<-|[]]]; cbn; lia.
Qed.

Lemma exOpsFit108 : Forall (opFits 2) exOps108.
Proof.
  unfold exOps108. do 5 (apply Forall_cons; [exact (exFits108 _ _ _)|]).
  do 2 (apply Forall_cons; [exact exDeletedFits108|]). apply Forall_nil.
Qed.
Definition isSomeRun {A} (o : option A) : bool := match o with Some _ => true | None => false end.
Lemma isSomeRun_ex : forall A (o : option A), isSomeRun o = true -> exists r, o = Some r.
Proof. intros A [r|] H; [eauto|discriminate]. Qed.
Lemma exRun108 : forall c, isSomeRun (runMinMax exLevels108 2 2 (exOps108 ++ [MWrite c]) (startMinMax 2)) = true.
Proof. intros [|]; vm_cast_no_check (eq_refl true). Qed.

Example C108_ex_hyps : NoDup exLevels108 /\ Forall (opFits 2) exOps108 /\
  (exists r, runMinMax exLevels108 2 2 (exOps108 ++ [MWrite ByWorkers]) (startMinMax 2) = Some r) /\
  (exists r, runMinMax exLevels108 2 2 (exOps108 ++ [MWrite ByManager]) (startMinMax 2) = Some r).
Proof.
  split. { repeat constructor; cbn; intuition discriminate. }
  split. { exact exOpsFit108. }
  split; [exact (isSomeRun_ex _ _ (exRun108 ByWorkers))|exact (isSomeRun_ex _ _ (exRun108 ByManager))].
Qed.

(** The report: subspace 0 from -2 to 12; subspace 1 has the minimum -9 and the (wrong) maximum 2^-1022. *)
Example C108_ex : exists s, runMinMax exLevels108 2 2 (exOps108 ++ [MWrite ByWorkers]) (startMinMax 2) =
  Some (s, [Some [([1; 1], Q2Qc (-2 # 1), Q2Qc (12 # 1)); ([1; 2], Q2Qc (-9 # 1), dblMin)]]).
Proof.
  assert (X : option_map snd (runMinMax exLevels108 2 2 (exOps108 ++ [MWrite ByWorkers]) (startMinMax 2)) =
              Some [Some [([1; 1], Q2Qc (-2 # 1), Q2Qc (12 # 1)); ([1; 2], Q2Qc (-9 # 1), dblMin)]]).
  { vm_compute. repeat f_equal; apply Qc_is_canon; reflexivity. }
  destruct (isSomeRun_ex _ _ (exRun108 ByWorkers)) as [[s r] E]. exists s. rewrite E in X |- *. cbn [option_map snd] in X. now injection X as ->.
Qed.

(** The maximum of a subspace with negative values only is wrong. *)
Theorem C108_max_refuted :
  ~ (forall levels nG nP ops s fs, (0 < nG)%nat -> (0 < nP)%nat -> NoDup levels -> Forall (opFits (length levels)) ops ->
       runMinMax levels nG nP (ops ++ [MWrite ByWorkers]) (startMinMax (length levels)) = Some (s, fs) ->
       exists fs' file, fs = fs' ++ [Some file] /\
         forall i mn mx, (i < length levels)%nat -> In (nth i levels [], mn, mx) file ->
           isMax mx (reportedValues nG nP (length levels) ops i)).
Proof.
  intros H. destruct C108_ex as [s E]. destruct C108_ex_hyps as (ND & HO & _).
  destruct (H exLevels108 2%nat 2%nat exOps108 s _ ltac:(lia) ltac:(lia) ND HO E) as (fs' & file & Ef & X).
  assert (fs' = [] /\ file = [([1; 1], Q2Qc (-2 # 1), Q2Qc (12 # 1)); ([1; 2], Q2Qc (-9 # 1), dblMin)]) as [-> ->].
  { destruct fs' as [|a fs']; [cbn [app] in Ef; injection Ef as Ef; auto|]. destruct fs'; discriminate. }
  specialize (X 1%nat (Q2Qc (-9 # 1)) dblMin ltac:(cbn; lia) (or_intror (or_introl eq_refl))). destruct X as [X _].
  assert (Y : forall x, In x (reportedValues 2 2 2 exOps108 1) -> Qle_bool 0 (this x) = false).
  { intros x Hx. apply (Forall_forall (fun x : Qc => Qle_bool 0 (this x) = false)) with (l := reportedValues 2 2 2 exOps108 1); auto.
    vm_compute. repeat constructor. }
  specialize (Y _ X). vm_compute in Y. discriminate.
Qed.

(** A report requested through the manager is not always written. *)
Theorem C108_manager_refuted :
  ~ (forall levels nG nP ops s fs, (0 < nG)%nat -> (0 < nP)%nat -> NoDup levels -> Forall (opFits (length levels)) ops ->
       runMinMax levels nG nP (ops ++ [MWrite ByManager]) (startMinMax (length levels)) = Some (s, fs) ->
       exists fs' file, fs = fs' ++ [Some file]).
Proof.
  intros H. destruct C108_ex_hyps as (ND & HO & _ & [[s fs] E]).
  destruct (H exLevels108 2%nat 2%nat exOps108 s fs ltac:(lia) ltac:(lia) ND HO E) as (f1 & file & E1).
  destruct (C108_manager_no_file exLevels108 2%nat 2%nat exOps108 s fs ltac:(lia) E) as (f2 & E2).
  rewrite E1 in E2. apply app_inj_tail in E2. destruct E2 as [_ E2]. discriminate.
Qed.

(** A second report after a combination in chunks (whose data are deleted at its end, SparseGridWorker.hpp:450) reads through
    null pointers: two reports in a row are not always possible. *)
Theorem C108_twice_refuted :
  ~ (forall levels nG nP ops s fs, (0 < nG)%nat -> (0 < nP)%nat -> NoDup levels -> Forall (opFits (length levels)) ops ->
       runMinMax levels nG nP (ops ++ [MWrite ByWorkers]) (startMinMax (length levels)) = Some (s, fs) ->
       exists r, runMinMax levels nG nP ((ops ++ [MWrite ByWorkers]) ++ [MWrite ByWorkers]) (startMinMax (length levels)) = Some r).
Proof.
  intros H. destruct C108_ex_hyps as (ND & HO & [[s fs] E] & _).
  destruct (H exLevels108 2%nat 2%nat exOps108 s fs ltac:(lia) ltac:(lia) ND HO E) as (r & E2).
  vm_compute in E2. discriminate.
Qed.

Print Assumptions C108_report.
Print Assumptions C108_max_partial.
Print Assumptions C108_defined.
Print Assumptions C108_manager_one_group.
Print Assumptions C108_manager_no_file.
Print Assumptions C108_ex.
Print Assumptions C108_max_refuted.
Print Assumptions C108_manager_refuted.
Print Assumptions C108_twice_refuted.
