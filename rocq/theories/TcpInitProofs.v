(** Lemmas about how two systems agree on the sizes of the sparse grid they exchange over the network. *)
From Verif Require Import Base TensorModel Level1dModel LevelSetsModel LevelSetsProofs SubspaceModel CombiSchemeModel CombiSchemeProofs Hier1dModel Hier1dProofs HierMassProofs
  DofProofs SparseGridModel SparseGridProofs CombineModel SparseTransferProofs SparseGridProps ReduceModel ReduceProofs VoteProofs SubspaceReduceProofs
  CombiStepModel CombiStepProofs CombiInitProofs FileModel FileProps ExchangeModel ExchangeProps ThirdLevelModel ThirdLevelProps WideModel WideProofs WideStepProofs
  WideInitProofs TcpModel TcpProofs.
From Coq Require Import QArith Qcanon Permutation Relations.
Open Scope Z_scope.
Ltac Zify.zify_post_hook ::= idtac.

Lemma map2_app : forall {A B C} (f : A -> B -> C) a a' b b', length a = length b -> map2 f (a ++ a') (b ++ b') = map2 f a b ++ map2 f a' b'.
Proof. induction a as [|x a IH]; intros a' [|y b] b' H; cbn in *; try discriminate; auto. f_equal. apply IH. lia. Qed.
Lemma map2_concat : forall {A B C} (f : A -> B -> C) (g : nat -> list A) (h : nat -> list B) l, (forall p, In p l -> length (g p) = length (h p)) ->
  map2 f (concat (map g l)) (concat (map h l)) = concat (map (fun p => map2 f (g p) (h p)) l).
Proof. induction l as [|p l IH]; intros H; cbn [map concat]; auto. rewrite map2_app by (apply H; now left). f_equal. apply IH. intros q Hq. apply H. now right. Qed.
Lemma scatter_concat : forall tables, scatter (map (@length Z) tables) (concat tables) = tables.
Proof.
  induction tables as [|t tables IH]; cbn [map concat scatter]; auto. rewrite firstn_app, Nat.sub_diag, firstn_O, app_nil_r, firstn_all. rewrite skipn_app, Nat.sub_diag, skipn_O, skipn_all. cbn [app]. now rewrite IH.
Qed.
Lemma concat_length_const : forall {A} k (ls : list (list A)), (forall v, In v ls -> length v = k) -> length (concat ls) = (length ls * k)%nat.
Proof. induction ls as [|v ls IH]; intros H; cbn [concat length]; auto. rewrite app_length, IH by (intros w Hw; apply H; now right). rewrite (H v) by now left. lia. Qed.
Lemma zsum_le_nth : forall a b, length a = length b -> (forall i, (i < length a)%nat -> nth i a 0 <= nth i b 0) -> zsum a <= zsum b.
Proof.
  induction a as [|x a IH]; intros [|y b] L H; try discriminate L; [apply Z.le_refl|]. cbn in L. change (zsum (x :: a)) with (x + zsum a). change (zsum (y :: b)) with (y + zsum b).
  pose proof (H 0%nat ltac:(cbn; lia)) as X. cbn in X. assert (zsum a <= zsum b) by (apply IH; [lia|]; intros i Hi; apply (H (S i)); cbn; lia). lia.
Qed.

Section Start.
Variables (dim : nat) (rest : list (list Z)).
Let levels := repeat 1 dim :: rest.
Hypothesis HL : sortedLevels dim levels.
Hypothesis HP : Forall (Forall (Z.le 1)) levels.
Let n := Z.of_nat (length levels).
Let lvl (i : Z) := nth (Z.to_nat i) levels [].
Variables (extra : bool) (esz : Z) (np : nat) (cnt : nat -> list Z -> Z).
Hypothesis Hcnt : forall p q, 0 <= cnt p q < 2 ^ 32.
Hypothesis Hsum : forall p, (p < np)%nat -> zsum (map (cnt p) levels) < 2 ^ 31 - 1.
Hypothesis Htot : zsum (map (fun p => zsum (map (cnt p) levels)) (seq 0 np)) < 2 ^ 31.
Notation ssizes ts p := (systemSizes dim rest (cnt p) (concat (nth p ts []))).

Definition both (a b : bool) : bool := if extra then a && b else a || b.
Definition agreed (ts1 ts2 : list (list (list Comp))) (p : nat) : list Z :=
  map (fun l => if both (heldIn l (concat (nth p ts1 []))) (heldIn l (concat (nth p ts2 []))) then cnt p l else 0) levels.

Lemma agreed_nth : forall ts1 ts2 p i, 0 <= i < n -> nth (Z.to_nat i) (agreed ts1 ts2 p) 0 = if both (heldIn (lvl i) (concat (nth p ts1 []))) (heldIn (lvl i) (concat (nth p ts2 []))) then cnt p (lvl i) else 0.
Proof. intros ts1 ts2 p i Hi. unfold agreed. exact (mapLv _ levels i Hi). Qed.
Lemma ssizes_nth : forall ts p i, 0 <= i < n -> nth (Z.to_nat i) (ssizes ts p) 0 = if heldIn (lvl i) (concat (nth p ts [])) then cnt p (lvl i) else 0.
Proof. intros ts p i Hi. unfold systemSizes. exact (mapLv _ levels i Hi). Qed.
Lemma ssizes_length : forall ts p, length (ssizes ts p) = length levels.
Proof. intros. unfold systemSizes. apply map_length. Qed.
Lemma agreed_length : forall ts1 ts2 p, length (agreed ts1 ts2 p) = length levels.
Proof. intros. unfold agreed. apply map_length. Qed.
Lemma agreed_fit : forall ts1 ts2 p, sizesFit dim rest (cnt p) (agreed ts1 ts2 p).
Proof. intros ts1 ts2 p. split; [apply agreed_length|]. intros i Hi. change (nth (Z.to_nat i) (agreed ts1 ts2 p) 0 = 0 \/ nth (Z.to_nat i) (agreed ts1 ts2 p) 0 = cnt p (lvl i)). rewrite agreed_nth by exact Hi. destruct (both _ _); auto. Qed.
Lemma agreed_sym : forall ts1 ts2 p, agreed ts1 ts2 p = agreed ts2 ts1 p.
Proof. intros. unfold agreed, both. apply map_ext. intros l. now destruct extra, (heldIn l (concat (nth p ts1 []))), (heldIn l (concat (nth p ts2 []))). Qed.
Lemma agreed_map2 : forall ts1 ts2 p, map2 (if extra then Z.min else Z.max) (ssizes ts1 p) (ssizes ts2 p) = agreed ts1 ts2 p.
Proof.
  intros ts1 ts2 p. assert (L : length (ssizes ts1 p) = length (ssizes ts2 p)) by now rewrite !ssizes_length.
  apply (listZ_ext _ _ (length levels)); [rewrite map2_length by auto; apply ssizes_length|apply agreed_length|]. intros i Hi. fold n in Hi.
  rewrite (map2_nth _ _ _ _ _ _ (Z.to_nat i) 0 0 0) by (rewrite ssizes_length; unfold n in Hi; lia). rewrite !ssizes_nth, agreed_nth by auto. pose proof (Hcnt p (lvl i)). unfold both.
  destruct extra, (heldIn (lvl i) (concat (nth p ts1 []))), (heldIn (lvl i) (concat (nth p ts2 []))); cbn [andb orb]; lia.
Qed.
Lemma fit_nonneg : forall p s, sizesFit dim rest (cnt p) s -> Forall (fun x => 0 <= x) s.
Proof. intros p s [L F]. apply Forall_forall. intros x Hx. apply (In_nth _ _ 0) in Hx. destruct Hx as (k & Hk & <-). specialize (F (Z.of_nat k)). rewrite Nat2Z.id in F. pose proof (Hcnt p (nth k (repeat 1 dim :: rest) [])). destruct F as [->| ->]; lia. Qed.
Lemma fit_le : forall p s, sizesFit dim rest (cnt p) s -> zsum s <= zsum (map (cnt p) levels).
Proof.
  intros p s [L F]. apply zsum_le_nth; [rewrite map_length; exact L|]. intros i Hi. specialize (F (Z.of_nat i)). rewrite Nat2Z.id in F. specialize (F ltac:(lia)).
  pose proof (mapLv (cnt p) levels (Z.of_nat i) ltac:(unfold levels; lia)) as X. rewrite Nat2Z.id in X. rewrite X. pose proof (Hcnt p (nth i levels [])). fold levels in F. destruct F as [->| ->]; lia.
Qed.

(** The totals over all processes. *)
Lemma total_small : forall (f : nat -> list Z), (forall p, sizesFit dim rest (cnt p) (f p)) ->
  sizesPerWorker (map (@length Z) (map f (seq 0 np))) (concat (map f (seq 0 np))) = map (fun p => zsum (f p)) (seq 0 np) /\
  accumulateInts (map (fun p => zsum (f p)) (seq 0 np)) = zsum (map (fun p => zsum (f p)) (seq 0 np)).
Proof.
  intros f F. split.
  - rewrite C41_manager_counts_partial; [now rewrite map_map|]. apply Forall_forall. intros t Ht. apply in_map_iff in Ht. destruct Ht as (p & <- & Hp). apply in_seq in Hp. split; [now apply (fit_nonneg p)|]. pose proof (fit_le p (f p) (F p)). specialize (Hsum p ltac:(lia)). lia.
  - unfold accumulateInts. rewrite accumulate_small; [apply Z.add_0_l|lia| |].
    + apply Forall_forall. intros x Hx. apply in_map_iff in Hx. destruct Hx as (p & <- & _). apply zsum_nonneg. now apply (fit_nonneg p).
    + rewrite Z.add_0_l. eapply Z.le_lt_trans; [|exact Htot]. apply zsum_le_nth; [now rewrite !map_length|]. intros i Hi. rewrite map_length, seq_length in Hi. rewrite !nth_map_seq by auto. now apply fit_le.
Qed.

Definition startOk (third : nat) (ts : list (list (list Comp))) : Prop := length ts = np /\ forall p gs, nth_error ts p = Some gs -> Forall (tasksOk dim (cnt p)) gs /\ (third < length gs)%nat.

Lemma init_spec : forall third ts, startOk third ts -> exists ps, mapO (initGroups VSparseGrid esz levels) ts = Some ps /\ length ps = np /\
  (forall p gs, nth_error ts p = Some gs -> exists g, nth_error ps p = Some g /\ map gTasks g = gs /\ forall x, In x g -> fresh dim rest (ssizes ts p) (gDsg x)) /\
  collectSizes third ps = map (fun p => ssizes ts p) (seq 0 np).
Proof.
  intros third ts [LT GT].
  destruct (mapO_nth (fun p gs g => map gTasks g = gs /\ forall x, In x g -> fresh dim rest (ssizes ts p) (gDsg x)) (initGroups VSparseGrid esz levels) ts) as (ps & EP & LP & FP).
  { intros p gs Eg. destruct (GT p gs Eg) as [TO OO]. assert (Hp : (p < np)%nat) by (rewrite <- LT; apply nth_error_Some; congruence).
    destruct (init_exact dim rest HL HP (cnt p) (Hcnt p) esz third gs TO OO) as (g & Ei & Et & Ef). exists g. split; [exact Ei|]. split; auto. rewrite (nth_error_nth ts p _ Eg). exact Ef. }
  exists ps. split; auto. split; [lia|].
  assert (Q : forall p gs, nth_error ts p = Some gs -> exists g, nth_error ps p = Some g /\ map gTasks g = gs /\ forall x, In x g -> fresh dim rest (ssizes ts p) (gDsg x)).
  { intros p gs Eg. destruct (FP p gs Eg) as (g & E & _ & A & B). eauto. }
  split; auto. unfold collectSizes. apply nth_ext with (d := []) (d' := []); [rewrite !map_length, seq_length; lia|]. intros p Hp. rewrite map_length in Hp. rewrite nth_map_seq by lia.
  destruct (nth_error_lt ts p ltac:(lia)) as (gs & Eg). destruct (Q p gs Eg) as (g & E & A & B). destruct (GT p gs Eg) as [_ OO]. destruct (nth_error_lt g third) as (x & Ex); [rewrite <- (map_length gTasks), A; exact OO|].
  rewrite (nth_error_nth (map _ ps) p (x := dSizes (groupDsg g third))) by (rewrite nth_error_map'; now rewrite E). rewrite (groupDsg_nth _ _ _ Ex). destruct (B x (nth_error_In _ _ Ex)) as (_ & S & _). exact S.
Qed.

Lemma held_contains : forall c (cs : list Comp) l, In c cs -> containsL c l -> heldIn l cs = true.
Proof. intros c cs l Hc Hl. unfold heldIn. apply existsb_exists. exists c. split; auto. apply vleb_spec; [now apply containsL_length|now apply Forall2_weak]. Qed.

Lemma setSizes_spec : forall third ts ts' p gs g, startOk third ts -> nth_error ts p = Some gs -> map gTasks g = gs -> (forall x, In x g -> fresh dim rest (ssizes ts p) (gDsg x)) ->
  let t := setSizes extra esz (length levels) third (agreed ts ts' p) g in
  tInv dim rest extra esz cnt (agreed ts ts') third p t /\ map gTasks (tGroups t) = gs.
Proof.
  intros third ts ts' p gs g [LT GT] Eg ET F t. destruct (GT p gs Eg) as [TO OO]. assert (Hp : (p < np)%nat) by (rewrite <- LT; apply nth_error_Some; congruence).
  pose proof (Hsum p Hp) as HS. pose proof (agreed_fit ts ts' p) as FA. pose proof (ms_fit dim rest (cnt p) (Hcnt p) 0%nat [[]] one_task (concat (nth p ts []))) as FM.
  assert (ENT : nth p ts [] = gs) by now apply nth_error_nth. assert (LG : length g = length gs) by (rewrite <- ET; now rewrite map_length).
  pose proof (fit_le p _ FA) as SA. pose proof (fit_le p _ FM) as SM.
  assert (TG : forall r x, nth_error g r = Some x -> tasksOk dim (cnt p) (gTasks x) /\ forall c, In c (gTasks x) -> In c (concat (nth p ts []))).
  { intros r x Ex. assert (IN : In (gTasks x) gs) by (rewrite <- ET; apply in_map; now apply nth_error_In in Ex). rewrite Forall_forall in TO. split; auto. intros c Hc. rewrite ENT. apply in_concat. eauto. }
  unfold t, setSizes. destruct (bool_dec extra true) as [EX|EX].
  - rewrite EX. cbn [tGroups]. split; [|rewrite mapDsgs_tasks; exact ET].
    set (f := fun r d => if Nat.eqb r third then zeroDsgData esz d else d).
    assert (Q : forall r x, nth_error g r = Some x -> dsgOk dim rest (f r (gDsg x)) /\ dSizes (f r (gDsg x)) = ssizes ts p).
    { intros r x Ex. pose proof (F x (nth_error_In _ _ Ex)) as FX. unfold f. destruct (Nat.eqb r third).
      - pose proof (fresh_zero dim rest (cnt p) (Hcnt p) HS esz 0%nat [[]] one_task _ _ FX FM) as FZ. split; [apply (full_dsgOk dim rest (ssizes ts p)); auto; lia|apply FZ].
      - split; [apply (fresh_dsgOk dim rest (ssizes ts p)); auto; lia|apply FX]. }
    assert (QI : forall x', In x' (mapDsgs f g) -> exists r x, nth_error g r = Some x /\ x' = withDsg x (f r (gDsg x))) by (intros x' Hx; apply mapDsgs_In in Hx; destruct Hx as (r & x & A & _ & B); eauto).
    split; [|unfold shapeOk; cbn; discriminate]. unfold extraSizes, virt. cbn [tGroups tExtra].
    pose proof (fresh_zero dim rest (cnt p) (Hcnt p) HS esz 0%nat [[]] one_task _ _ (new_fresh dim rest esz (cnt p) (agreed ts ts' p) (Hcnt p) FA) FA) as FE. fold levels in FE.
    split; [|split; [|split; [|split; [|split; [|split]]]]]; cbn [pGroups pExtra].
    + apply Forall_forall. intros x' Hx. destruct (QI x' Hx) as (r & x & Ex & ->). destruct (Q r x Ex) as [DO SZ]. destruct (TG r x Ex) as [TX TC]. split; [exact TX|]. split; [exact DO|]. cbn [withDsg gTasks gDsg].
      intros c i Hc Hi Hl. unfold dataSize. rewrite SZ. rewrite ssizes_nth by exact Hi. change (nth (Z.to_nat i) (repeat 1 dim :: rest) []) with (lvl i) in Hl |- *. now rewrite (held_contains c _ _ (TC c Hc) Hl).
    + intros r r' a b Ea Eb. rewrite mapDsgs_nth in Ea, Eb. destruct (nth_error g r) as [x|] eqn:Ex; [|discriminate]. destruct (nth_error g r') as [y|] eqn:Ey; [|discriminate]. injection Ea as <-. injection Eb as <-. cbn [withDsg gDsg].
      destruct (Q r x Ex) as [_ ->]. destruct (Q r' y Ey) as [_ ->]. reflexivity.
    + rewrite mapDsgs_length. lia.
    + apply (full_dsgOk dim rest (agreed ts ts' p)); auto. lia.
    + apply FE.
    + intros x' i Hx Hi. destruct (QI x' Hx) as (r & x & Ex & ->). destruct (Q r x Ex) as [_ SZ]. cbn [withDsg gDsg]. unfold dataSize. rewrite SZ. rewrite ssizes_nth, agreed_nth by exact Hi. unfold both. rewrite EX. destruct (heldIn _ (concat (nth p ts []))); cbn [andb]; auto. destruct (heldIn _ _); auto.
    + intros x' Hx. destruct (QI x' Hx) as (r & x & Ex & ->). destruct (Q r x Ex) as [_ SZ]. cbn [withDsg gDsg]. rewrite SZ. lia.
  - apply not_true_is_false in EX. rewrite EX. cbn [tGroups]. split; [|rewrite mapDsgs_tasks; exact ET].
    set (f := fun (_ : nat) d => zeroDsgData esz (overwriteSizesAndDelete (agreed ts ts' p) d)).
    assert (Q : forall r x, nth_error g r = Some x -> full dim rest (agreed ts ts' p) (f r (gDsg x))).
    { intros r x Ex. pose proof (F x (nth_error_In _ _ Ex)) as FX. unfold f. apply (fresh_zero dim rest (cnt p) (Hcnt p) HS esz 0%nat [[]] one_task); auto.
      apply (dinv_over dim rest (cnt p) (Hcnt p) esz 0%nat [[]] one_task (ssizes ts p)); auto. apply (fresh_dinv dim rest); auto. }
    assert (QI : forall x', In x' (mapDsgs f g) -> exists r x, nth_error g r = Some x /\ x' = withDsg x (f r (gDsg x))) by (intros x' Hx; apply mapDsgs_In in Hx; destruct Hx as (r & x & A & _ & B); eauto).
    assert (ZE : zsum (noSizes dim rest) = 0) by (unfold noSizes; generalize (repeat 1 dim :: rest); clear; induction l as [|a l IH]; [reflexivity|]; cbn [map]; change (zsum (0 :: ?b)) with (0 + zsum b); lia).
    split.
    2:{ unfold shapeOk. cbn [tExtra tGroups]. split; auto. intros x' Hx. destruct (QI x' Hx) as (r & x & Ex & ->). apply (Q r x Ex). }
    unfold extraSizes, virt. cbn [tGroups tExtra]. pose proof (noExtra_full dim rest esz np cnt (agreed ts ts') Hcnt) as NF.
    split; [|split; [|split; [|split; [|split; [|split]]]]]; cbn [pGroups pExtra].
    + apply Forall_forall. intros x' Hx. destruct (QI x' Hx) as (r & x & Ex & ->). pose proof (Q r x Ex) as FX. destruct (TG r x Ex) as [TX TC]. split; [exact TX|]. split; [apply (full_dsgOk dim rest (agreed ts ts' p)); auto; lia|]. cbn [withDsg gTasks gDsg].
      intros c i Hc Hi Hl. unfold dataSize. destruct FX as (_ & _ & ->). rewrite agreed_nth by exact Hi. change (nth (Z.to_nat i) (repeat 1 dim :: rest) []) with (lvl i) in Hl |- *. rewrite (held_contains c _ _ (TC c Hc) Hl). unfold both. rewrite EX. reflexivity.
    + intros r r' a b Ea Eb. rewrite mapDsgs_nth in Ea, Eb. destruct (nth_error g r) as [x|] eqn:Ex; [|discriminate]. destruct (nth_error g r') as [y|] eqn:Ey; [|discriminate]. injection Ea as <-. injection Eb as <-. cbn [withDsg gDsg].
      destruct (Q r x Ex) as (_ & _ & ->). destruct (Q r' y Ey) as (_ & _ & ->). reflexivity.
    + rewrite mapDsgs_length. lia.
    + apply (full_dsgOk dim rest (noSizes dim rest)); [exact NF|]. change (zsum (noSizes dim rest) < 2 ^ 31). rewrite ZE. lia.
    + apply NF.
    + intros x' i Hx Hi. left. apply noSizes_nth.
    + intros x' Hx. destruct (QI x' Hx) as (r & x & Ex & ->). destruct (Q r x Ex) as (_ & _ & SZ). cbn [withDsg gDsg]. rewrite SZ. lia.
Qed.

(** One system, with the sizes of the other. *)
Lemma received_spec : forall third ts ts' ps, startOk third ts -> length ps = np ->
  (forall p gs, nth_error ts p = Some gs -> exists g, nth_error ps p = Some g /\ map gTasks g = gs /\ forall x, In x g -> fresh dim rest (ssizes ts p) (gDsg x)) ->
  collectSizes third ps = map (fun p => ssizes ts p) (seq 0 np) ->
  exists S, sizesReceived extra esz (length levels) third ps (map2 (if extra then Z.min else Z.max) (concat (map (fun p => ssizes ts p) (seq 0 np))) (concat (map (fun p => ssizes ts' p) (seq 0 np)))) = Some S /\
    tsInv dim rest extra esz np cnt (agreed ts ts') third S /\ forall p gs, nth_error ts p = Some gs -> exists pr, nth_error (tProcs S) p = Some pr /\ map gTasks (tGroups pr) = gs.
Proof.
  intros third ts ts' ps SO LP FP EC. pose proof SO as [LT GT]. unfold sizesReceived. rewrite EC. cbv zeta.
  rewrite map2_concat by (intros p _; now rewrite !ssizes_length).
  rewrite (map_ext _ (agreed ts ts') (agreed_map2 ts ts')).
  assert (EL : map (@length Z) (map (fun p => ssizes ts p) (seq 0 np)) = map (@length Z) (map (agreed ts ts') (seq 0 np))) by (rewrite !map_map; apply map_ext; intros p; now rewrite ssizes_length, agreed_length).
  destruct (total_small (fun p => ssizes ts p)) as [A1 A2]; [intros p; exact (ms_fit dim rest (cnt p) (Hcnt p) 0%nat [[]] one_task _)|]. destruct (total_small (agreed ts ts')) as [B1 B2]; [intros p; apply agreed_fit|].
  rewrite A1. rewrite EL. rewrite B1. rewrite scatter_concat.
  assert (CK : sizesCheck extra (map (fun p => zsum (ssizes ts p)) (seq 0 np)) (map (fun p => zsum (agreed ts ts' p)) (seq 0 np)) = true).
  { unfold sizesCheck. rewrite A2, B2.
    destruct (bool_dec extra true) as [EX|EX]; [|apply not_true_is_false in EX]; rewrite EX; apply Z.leb_le; (apply zsum_le_nth; [now rewrite !map_length|]); intros p Hp; rewrite map_length, seq_length in Hp; rewrite !nth_map_seq by auto;
      (apply zsum_le_nth; [now rewrite ssizes_length, agreed_length|]); intros i Hi; rewrite ?ssizes_length, ?agreed_length in Hi; rewrite <- (Nat2Z.id i); rewrite ssizes_nth, agreed_nth by (unfold n; lia); unfold both; rewrite EX; pose proof (Hcnt p (lvl (Z.of_nat i)));
      destruct (heldIn _ (concat (nth p ts []))), (heldIn _ (concat (nth p ts' []))); cbn [andb orb]; lia. }
  rewrite CK. eexists. split; [reflexivity|].
  assert (Q : forall p gs, nth_error ts p = Some gs -> exists pr, nth_error (map (fun sg => setSizes extra esz (length levels) third (fst sg) (snd sg)) (combine (map (agreed ts ts') (seq 0 np)) ps)) p = Some pr /\
     tInv dim rest extra esz cnt (agreed ts ts') third p pr /\ map gTasks (tGroups pr) = gs).
  { intros p gs Eg. assert (Hp : (p < np)%nat) by (rewrite <- LT; apply nth_error_Some; congruence). destruct (FP p gs Eg) as (g & E & A & B).
    assert (EN : nth_error (combine (map (agreed ts ts') (seq 0 np)) ps) p = Some (agreed ts ts' p, g)).
    { rewrite (nth_error_nth' _ ([], g)) by (rewrite combine_length, map_length, seq_length; lia). rewrite combine_nth by (rewrite map_length, seq_length; lia). rewrite nth_map_seq by auto. now rewrite (nth_error_nth _ _ _ E). }
    rewrite nth_error_map', EN. cbn [fst snd]. eexists. split; [reflexivity|]. exact (setSizes_spec third ts ts' p gs g SO Eg A B). }
  split.
  - split; [reflexivity|]. cbn [tProcs tCounts]. split; [rewrite map_length, combine_length, map_length, seq_length; lia|]. split; [reflexivity|]. intros p pr Epr.
    pose proof (proj1 (nth_error_Some _ _) ltac:(rewrite Epr; discriminate)) as Hp. rewrite map_length, combine_length, map_length, seq_length in Hp. destruct (nth_error_lt ts p ltac:(lia)) as (gs & Eg). destruct (Q p gs Eg) as (pr' & E' & I' & _). rewrite Epr in E'. now injection E' as <-.
  - intros p gs Eg. destruct (Q p gs Eg) as (pr & E & _ & T). exists pr. auto.
Qed.

Lemma startTcp_spec : forall t1 t2 ts1 ts2, startOk t1 ts1 -> startOk t2 ts2 ->
  exists ps1 ps2 S1 S2, mapO (initGroups VSparseGrid esz levels) ts1 = Some ps1 /\ mapO (initGroups VSparseGrid esz levels) ts2 = Some ps2 /\
    matching (RUnify extra) {| blocks := []; sizes := concat (collectSizes t1 ps1) |} {| blocks := []; sizes := concat (collectSizes t2 ps2) |} /\
    startTcp esz levels extra t1 t2 ts1 ts2 S1 S2 /\ (forall S1' S2', startTcp esz levels extra t1 t2 ts1 ts2 S1' S2' -> S1' = S1 /\ S2' = S2) /\
    tsInv dim rest extra esz np cnt (agreed ts1 ts2) t1 S1 /\ tsInv dim rest extra esz np cnt (agreed ts1 ts2) t2 S2 /\
    (forall p gs, nth_error ts1 p = Some gs -> exists pr, nth_error (tProcs S1) p = Some pr /\ map gTasks (tGroups pr) = gs) /\
    (forall p gs, nth_error ts2 p = Some gs -> exists pr, nth_error (tProcs S2) p = Some pr /\ map gTasks (tGroups pr) = gs).
Proof.
  intros t1 t2 ts1 ts2 O1 O2. destruct (init_spec t1 ts1 O1) as (ps1 & E1 & L1 & F1 & C1). destruct (init_spec t2 ts2 O2) as (ps2 & E2 & L2 & F2 & C2).
  destruct (received_spec t1 ts1 ts2 ps1 O1 L1 F1 C1) as (S1 & R1 & I1 & T1). destruct (received_spec t2 ts2 ts1 ps2 O2 L2 F2 C2) as (S2 & R2 & I2 & T2).
  assert (I2' : tsInv dim rest extra esz np cnt (agreed ts1 ts2) t2 S2).
  { assert (X : forall U V third S, (forall p, U p = V p) -> tsInv dim rest extra esz np cnt U third S -> tsInv dim rest extra esz np cnt V third S).
    { intros U V third S EU (A & B & C & D). split; auto. split; auto. split; [rewrite C; apply map_ext; intros p; now rewrite EU|]. intros k p Ep. destruct (D k p Ep) as [P Q]. split.
      - unfold extraSizes in *. destruct extra; [now rewrite <- EU|exact P].
      - unfold shapeOk in *. destruct extra; [exact Q|]. now rewrite <- EU. }
    apply (X (agreed ts2 ts1)); auto. intros p. apply agreed_sym. }
  exists ps1, ps2, S1, S2. split; auto. split; auto.
  assert (HM : matching (RUnify extra) {| blocks := []; sizes := concat (collectSizes t1 ps1) |} {| blocks := []; sizes := concat (collectSizes t2 ps2) |}).
  { cbn [matching sizes]. rewrite C1, C2. rewrite !(concat_length_const (length levels)); [now rewrite !map_length| |]; intros v Hv; apply in_map_iff in Hv; destruct Hv as (p & <- & _); apply ssizes_length. }
  split; auto. pose proof (exchanged_iff (RUnify extra) {| blocks := []; sizes := concat (collectSizes t1 ps1) |} {| blocks := []; sizes := concat (collectSizes t2 ps2) |}) as EX. cbn [afterRound unifySizes blocks sizes] in EX. rewrite C1, C2 in EX.
  split; [|split; [|auto]].
  - exists ps1, ps2. do 2 eexists. split; [exact E1|]. split; [exact E2|]. rewrite C1, C2. rewrite C1, C2 in HM. split; [apply EX; [exact HM|reflexivity]|]. cbn [sizes]. auto.
  - intros S1' S2' (ps1' & ps2' & e1 & e2 & A1 & A2 & X & B1 & B2). rewrite E1 in A1. injection A1 as <-. rewrite E2 in A2. injection A2 as <-. rewrite C1, C2 in X, HM. apply EX in X; auto. injection X as -> ->. cbn [sizes unifySizes] in B1, B2.
    rewrite R1 in B1. rewrite R2 in B2. split; congruence.
Qed.
End Start.
