(** Lemmas about the combination of two systems over the network. *)
From Verif Require Import Base TensorModel Level1dModel LevelSetsModel LevelSetsProofs SubspaceModel CombiSchemeModel Hier1dModel Hier1dProofs HierMassProofs
  DofProofs SparseGridModel SparseGridProofs CombineModel SparseTransferProofs SparseGridProps ReduceModel ReduceProofs VoteProofs SubspaceReduceProofs
  CombiStepModel CombiStepProofs CombiInitProofs FileModel FileProps ExchangeModel ExchangeProps ThirdLevelModel ThirdLevelProps WideModel WideProofs WideStepProofs
  WideInitProofs TcpModel.
From Coq Require Import QArith Qcanon Permutation Relations.
Open Scope Z_scope.
Ltac Zify.zify_post_hook ::= idtac.

(** ** One execution of the network *)
Notation idC := (fun (_ : list round) (d : sysData) => d).
Notation idA := (fun (_ : list Qc) (d : sysData) => d).
Lemma exchanged_iff : forall r d1 d2 e1 e2, matching r d1 d2 -> exchanged r d1 d2 e1 e2 <-> (e1, e2) = afterRound idA idA r d1 d2.
Proof.
  intros r d1 d2 e1 e2 HM.
  assert (AM : allMatching idC idC idA idA [r] d1 d2) by (cbn [allMatching]; split; [exact HM|destruct (afterRound _ _ _ _ _); exact I]).
  pose proof (all_rounds idC idC idA idA [r] d1 d2 AM) as G.
  assert (AR : afterRounds idC idC idA idA [r] d1 d2 = afterRound idA idA r d1 d2) by (cbn [afterRounds]; now destruct (afterRound _ _ _ _ _)). rewrite AR in G.
  split.
  - intros (s & R & D1 & D2).
    assert (X : forall s, good (nextS idC idA) (nextS idC idA) (finished (afterRound idA idA r d1 d2)) s -> sys1 s = SDone e1 -> sys2 s = SDone e2 -> (e1, e2) = afterRound idA idA r d1 d2).
    { clear. intros s G. induction G as [s NT HP|s (t & HT) ALL IH]; intros D1 D2.
      - rewrite HP in D1, D2. cbn [sys1 sys2] in D1, D2. injection D1 as <-. injection D2 as <-. now destruct (afterRound _ _ _ _ _).
      - assert (K : sys1 t = SDone e1 /\ sys2 t = SDone e2); [|destruct K; now apply (IH t)].
        destruct HT as [c HS]. inversion HS; subst; cbn [sys1 sys2] in *; auto; subst; match goal with H : nextS _ _ (SDone _) = _ |- _ => discriminate H end. }
    apply (X s); auto. exact (good_reach _ _ _ _ _ G R).
  - intros E. rewrite <- E in G. assert (Q : forall s, good (nextS idC idA) (nextS idC idA) (finished (e1, e2)) s -> exists s', clos_refl_trans net netStep s s' /\ finished (e1, e2) s').
    { clear. intros s G. induction G as [s NT HP|s (t & HT) ALL IH].
      - exists s. split; auto. apply rt_refl.
      - destruct (IH t HT) as (s' & R & F). exists s'. split; auto. eapply rt_trans; [apply rt_step; exact HT|exact R]. }
    destruct (Q _ G) as (s & R & F). exists s. split; auto. rewrite F. cbn. auto.
Qed.

(** A process without values: the exchange of both systems ends with its block. *)
Ltac oneStep := eapply back; [first [eapply st_send1; reflexivity|eapply st_send2; reflexivity|eapply st_recv1; reflexivity|eapply st_recv2; reflexivity|eapply st_bsend1; reflexivity
  |eapply st_bsend2; reflexivity|eapply st_brecv1; reflexivity|eapply st_brecv2; reflexivity]|]; cbn [app].
Definition stopped (s : net) : Prop := (forall e, sys1 s <> SDone e) /\ (forall e, sys2 s <> SDone e).
Notation goodId := (good (nextS idC idA) (nextS idC idA)).
Lemma stop_blocks1 : forall rs d1 d2 a b done, map (@length Qc) a = map (@length Qc) b -> In [] a -> goodId stopped (Net (BComb 3 false) (SCombNext true done a rs d1) (SCombNext false done b rs d2) [] [] [] []).
Proof.
  intros rs d1 d2. induction a as [|x a IH]; intros [|y b] done HL HN; try discriminate HL; [destruct HN|]. injection HL as L1 L2. destruct x as [|x0 x].
  - destruct y; [|discriminate L1]. apply good_end; [|split; intros e; discriminate]. intros t [c H]. inversion H; subst; discriminate.
  - destruct HN as [HN|HN]; [discriminate|]. destruct y as [|y0 y]; [discriminate L1|]. set (u := x0 :: x) in *. set (w := y0 :: y) in *.
    repeat oneStep. rewrite (proj2 (Nat.eqb_eq _ _) L1). repeat oneStep. assert (E1 : length (map2 Qcplus w u) = length u) by (rewrite map2_length; lia). rewrite (proj2 (Nat.eqb_eq _ _) E1). repeat oneStep. now apply IH.
Qed.
Lemma stop_blocks2 : forall rs d1 d2 a b done, map (@length Qc) a = map (@length Qc) b -> In [] a -> goodId stopped (Net (BComb 3 true) (SCombNext false done a rs d1) (SCombNext true done b rs d2) [] [] [] []).
Proof.
  intros rs d1 d2. induction a as [|x a IH]; intros [|y b] done HL HN; try discriminate HL; [destruct HN|]. injection HL as L1 L2. destruct x as [|x0 x].
  - destruct y; [|discriminate L1]. apply good_end; [|split; intros e; discriminate]. intros t [c H]. inversion H; subst; discriminate.
  - destruct HN as [HN|HN]; [discriminate|]. destruct y as [|y0 y]; [discriminate L1|]. set (u := x0 :: x) in *. set (w := y0 :: y) in *.
    repeat oneStep. rewrite (proj2 (Nat.eqb_eq _ _) (eq_sym L1)). repeat oneStep. assert (E1 : length (map2 Qcplus u w) = length w) by (rewrite map2_length; lia). rewrite (proj2 (Nat.eqb_eq _ _) E1). repeat oneStep. now apply IH.
Qed.
Lemma not_exchanged : forall d1 d2 e1 e2, map (@length Qc) (blocks d1) = map (@length Qc) (blocks d2) -> In [] (blocks d1) -> ~ exchanged RCombine d1 d2 e1 e2.
Proof.
  intros d1 d2 e1 e2 HL HN (s & R & D1 & D2).
  assert (G : goodId stopped (startNet [RCombine] d1 d2)).
  { unfold startNet. oneStep. oneStep. eapply both_choices; [reflexivity|discriminate|discriminate| |]; cbv beta iota; cbn [processMessage andb]; do 5 oneStep; [now apply stop_blocks1|now apply stop_blocks2]. }
  pose proof (good_reach _ _ _ _ _ G R) as GS. clear - GS D1 D2. induction GS as [s NT [A B]|s (t & HT) ALL IH]; [now apply (A e1)|].
  assert (K : sys1 t = SDone e1 /\ sys2 t = SDone e2); [|destruct K; now apply (IH t)].
  destruct HT as [c HS]. inversion HS; subst; cbn [sys1 sys2] in *; auto; subst; match goal with H : nextS _ _ (SDone _) = _ |- _ => discriminate H end.
Qed.

(** ** Reducing in all groups *)
Section One.
Variables (dim : nat) (rest : list (list Z)).
Let levels := repeat 1 dim :: rest.
Hypothesis HL : sortedLevels dim levels.
Hypothesis HP : Forall (Forall (Z.le 1)) levels.
Let n := Z.of_nat (length levels).
Let lvl (i : Z) := nth (Z.to_nat i) levels [].
Variable cnt : list Z -> Z.
Hypothesis Hcnt : forall q, 0 <= cnt q < 2 ^ 32.
Notation full := (full dim rest).
Notation offS := (offS dim rest).

Lemma reduceGroups_spec : forall esz mc out E pr, 0 < mc < 2 ^ 31 -> procInv dim rest cnt out E pr ->
  exists gs, reduceGroups esz mc levels (pGroups pr) = Some gs /\ length gs = length (pGroups pr) /\
    forall r g0 g, nth_error (pGroups pr) r = Some g0 -> nth_error gs r = Some g -> gTasks g = gTasks g0 /\ gComms g = gComms g0 /\ full (dSizes (gDsg g0)) (gDsg g) /\
      forall i j, 0 <= i < n -> 0 <= j < dataSize (gDsg g0) i -> dData (gDsg g) (offS (dSizes (gDsg g0)) i + j) = weightedSum (allTasks (pGroups pr)) (lvl i) j.
Proof.
  intros esz mc out E pr HMC (G & SS & HO & DE & SE & EE & TT). unfold reduceGroups.
  set (gs := pGroups pr) in *. set (gz := mapDsgs (fun _ d => zeroDsgData esz d) gs).
  assert (LZ : length gz = length gs) by apply mapDsgs_length.
  destruct (mapO_nth (fun r g d => forall g0, nth_error gs r = Some g0 -> full (dSizes (gDsg g0)) d /\
      (forall i j, 0 <= i < n -> 0 <= j < dataSize d i -> dData d (off d i + j) = weightedSum (gTasks g0) (lvl i) j))
      (fun g => addAll true levels (gTasks g) (gDsg g)) gz) as (ds & ED & LD & FD).
  { intros r g Eg. unfold gz in Eg. rewrite mapDsgs_nth in Eg. destruct (nth_error gs r) as [g0|] eqn:E0; [|discriminate]. injection Eg as <-. cbn [withDsg gTasks gDsg].
    rewrite Forall_forall in G. destruct (G g0 (nth_error_In _ _ E0)) as (T & D & S). destruct (zero_spec dim rest cnt Hcnt esz (gDsg g0) D) as (R & ES & EW & EZ & EL).
    destruct (addAll_local dim rest HL HP cnt true (gTasks g0) (zeroDsgData esz (gDsg g0)) R EZ T) as (d' & Ea & Sh & K & V).
    - now apply (sizesOk_sizes dim rest cnt _ (gDsg g0)).
    - intros _ i Hi. rewrite EW. now apply zrange_In.
    - exists d'. split; [exact Ea|]. intros g0' E0'. injection E0' as <-. pose proof Sh as (S1 & S2 & _ & S4 & _). split.
      + split; [now apply (ready_same levels _ d' R)|]. split; [rewrite S2; exact EW|]. rewrite S1. exact ES.
      + intros i j Hi Hj. unfold off, dataSize in *. rewrite S1, S2 in *. apply V; auto. rewrite EW. now apply zrange_In. }
  cbv zeta. rewrite ED.
  assert (DS : forall r g0, nth_error gs r = Some g0 -> full (dSizes (gDsg g0)) (dsgAt ds r) /\
     (forall i j, 0 <= i < n -> 0 <= j < dataSize (dsgAt ds r) i -> dData (dsgAt ds r) (off (dsgAt ds r) i + j) = weightedSum (gTasks g0) (lvl i) j)).
  { intros r g0 E0. assert (EZ : nth_error gz r = Some (withDsg g0 (zeroDsgData esz (gDsg g0)))) by (unfold gz; rewrite mapDsgs_nth; now rewrite E0).
    destruct (FD r _ EZ) as (d & Ed & _ & Q). unfold dsgAt. rewrite (nth_error_nth ds r _ Ed). now apply Q. }
  destruct (nth_error_lt gs out HO) as (go & Ego).
  assert (S0 : forall r g0, nth_error gs r = Some g0 -> dSizes (gDsg g0) = dSizes (gDsg go)) by (intros r g0 E0; now apply (SS r out)).
  set (s := dSizes (gDsg go)) in *.
  destruct (DS out go Ego) as [FO _]. destruct (full_len _ _ _ _ FO) as (_ & _ & TL). fold s in TL.
  assert (TS : zsum s < 2 ^ 31 - 1) by (apply TT; now apply nth_error_In in Ego).
  destruct (sparseGridReduce_spec (length gs) mc (dsgAt ds) (zsum s) HMC ltac:(lia)) as (ds' & ER & SH & VR).
  { intros r Hr. destruct (nth_error_lt gs r Hr) as (g0 & E0). destruct (DS r g0 E0) as [F _]. destruct (full_len _ _ _ _ F) as (-> & _). now rewrite (S0 r g0 E0). }
  rewrite LZ, ER. eexists. split; [reflexivity|]. split; [rewrite mapDsgs_length; exact LZ|].
  assert (FD' : forall r g0, nth_error gs r = Some g0 -> full s (ds' r)).
  { intros r g0 E0. destruct (DS r g0 E0) as [(R & W & S) _]. destruct (SH r) as [Sh EK]. pose proof Sh as (S1 & S2 & _). split; [|split; [congruence|]].
    - apply (ready_same levels (dsgAt ds r)); auto. intros k Hk. rewrite EK. now apply R.
    - rewrite S1, S. now apply (S0 r). }
  intros r g0 g E0 E1. rewrite mapDsgs_nth in E1. unfold gz in E1. rewrite mapDsgs_nth, E0 in E1. injection E1 as <-. cbn [withDsg gTasks gComms gDsg]. rewrite (S0 r g0 E0). fold s.
  split; auto. split; auto. split; [now apply (FD' r g0)|]. intros i j Hi Hj. unfold dataSize in Hj. rewrite (S0 r g0 E0) in Hj. fold s in Hj.
  destruct (full_ptr dim rest s _ i (FD' r g0 E0) Hi) as (_ & P0 & P1).
  rewrite VR by (try apply nth_error_Some; try congruence; lia). unfold weightedSum. rewrite <- sum_groups. apply qsum_ext. intros r' Hr. apply in_seq in Hr.
  destruct (nth_error_lt gs r' ltac:(lia)) as (g1 & E1). destruct (DS r' g1 E1) as [F V]. rewrite (S0 r' g1 E1) in F. fold s in F. rewrite <- (full_off dim rest s _ i F). rewrite V; auto; [unfold tasksAt; now rewrite E1|].
  now rewrite (full_size dim rest s _ i F).
Qed.
End One.

(** ** Both systems *)
Lemma one_task : (0 < length [@nil Comp])%nat.
Proof. cbn. lia. Qed.

Section Tcp.
Variables (dim : nat) (rest : list (list Z)).
Let levels := repeat 1 dim :: rest.
Hypothesis HL : sortedLevels dim levels.
Hypothesis HP : Forall (Forall (Z.le 1)) levels.
Let n := Z.of_nat (length levels).
Let lvl (i : Z) := nth (Z.to_nat i) levels [].
(** For each process: the number of points of a subspace and the sizes of the exchanged sparse grid. *)
Variables (extra : bool) (esz : Z) (np : nat) (cnt : nat -> list Z -> Z) (U : nat -> list Z).
Hypothesis Hcnt : forall p q, 0 <= cnt p q < 2 ^ 32.

Definition noSizes : list Z := map (fun _ => 0) levels.
Definition extraSizes (k : nat) : list Z := if extra then U k else noSizes.
(** A process without an extra sparse grid is like one whose extra sparse grid is empty. *)
Definition noExtra : DSG := zeroDsgData esz (overwriteSizesAndDelete noSizes (createKahanBuffer esz (initDSG (length levels)))).
Definition virt (p : TProc) : Proc := {| pGroups := tGroups p; pExtra := match tExtra p with Some e => e | None => noExtra end |}.

Lemma new_fresh : forall (c : list Z -> Z) s, (forall q, 0 <= c q < 2 ^ 32) -> sizesFit dim rest c s -> fresh dim rest s (overwriteSizesAndDelete s (createKahanBuffer esz (initDSG (length levels)))).
Proof.
  intros c s Hc F. apply (dinv_over dim rest c Hc esz 0%nat [[]] one_task (repeat 0 (length levels))); auto.
  assert (I0 : dsgInv (length levels) (createKahanBuffer esz (initDSG (length levels)))) by (apply createKahan_inv, dsgInv_data, init_inv).
  split; auto. split; [|reflexivity].
  assert (W0 : dWith (createKahanBuffer esz (initDSG (length levels))) = zrange 0 n) by (cbn [createKahanBuffer dWith]; unfold chosen, numSubspaces, initDSG; cbn [dWith dSizes]; now rewrite repeat_length).
  unfold chosen. rewrite W0. unfold numSubspaces. destruct I0 as (-> & _). fold levels n. destruct (zrange 0 n) eqn:EZ; auto.
Qed.
Lemma noSizes_nth : forall i, nth (Z.to_nat i) noSizes 0 = 0.
Proof. intros i. unfold noSizes. generalize (Z.to_nat i). clear. induction levels as [|l ls IH]; intros [|k]; cbn; auto. Qed.
Lemma noExtra_full : full dim rest noSizes noExtra.
Proof.
  assert (Z0 : forall ls : list (list Z), zsum (map (fun _ => 0) ls) = 0) by (induction ls as [|l ls IH]; [reflexivity|]; cbn [map]; change (zsum (?a :: ?b)) with (a + zsum b); lia).
  assert (F : sizesFit dim rest (fun _ => 0) noSizes) by (split; [unfold noSizes; now rewrite map_length|]; intros i Hi; left; apply noSizes_nth).
  apply (fresh_zero dim rest (fun _ => 0) ltac:(intros q; lia) ltac:(rewrite Z0; lia) esz 0%nat [[]] one_task); auto. apply (new_fresh (fun _ => 0)); auto. intros q; lia.
Qed.

Definition shapeOk (k : nat) (p : TProc) : Prop := if extra then tExtra p <> None else tExtra p = None /\ forall g, In g (tGroups p) -> dSizes (gDsg g) = U k.
Definition tInv (third k : nat) (p : TProc) : Prop := procInv dim rest (cnt k) third (extraSizes k) (virt p) /\ shapeOk k p.
Definition tMid (third k : nat) (gs0 : list Group) (p : TProc) (X : Z -> Z -> Qc) : Prop := procMid dim rest third (extraSizes k) gs0 (virt p) X /\ shapeOk k p.

Lemma prepareProc_spec : forall mc third k p, 0 < mc < 2 ^ 31 -> tInv third k p ->
  exists p', prepareProc esz mc levels third p = Some p' /\ tMid third k (tGroups p) p' (fun i j => weightedSum (allTasks (tGroups p)) (lvl i) j).
Proof.
  intros mc third k p HMC [I SH]. pose proof I as (G & SS & HO & DE & SE & EE & TT). unfold prepareProc.
  destruct (reduceGroups_spec dim rest HL HP (cnt k) (Hcnt k) esz mc third (extraSizes k) (virt p) HMC I) as (gs & EG & LG & FG). cbn [virt pGroups] in EG, LG, FG, HO. fold levels in EG. rewrite EG.
  eexists. split; [reflexivity|]. destruct (nth_error_lt (tGroups p) third HO) as (g0 & E0). destruct (nth_error_lt gs third ltac:(lia)) as (g & Eg). rewrite (groupDsg_nth gs third g Eg).
  destruct (FG third g0 g E0 Eg) as (_ & _ & FT & VT).
  assert (SM : forall k' g', In g' gs -> dSizes (gDsg g') = U k' \/ exists g1, In g1 (tGroups p) /\ dSizes (gDsg g') = dSizes (gDsg g1)).
  { intros k' g' Hg'. right. apply In_nth_error in Hg'. destruct Hg' as (r & Er). destruct (nth_error_lt (tGroups p) r) as (g1 & E1); [rewrite <- LG; apply nth_error_Some; congruence|].
    exists g1. split; [now apply nth_error_In in E1|]. destruct (FG r g1 g' E1 Er) as (_ & _ & (_ & _ & S) & _). exact S. }
  split.
  - split; [exact LG|]. split; [|split; [|split]].
    + intros r a b Ea Eb. destruct (FG r a b Ea Eb) as (A & B & C & _). auto.
    + cbn [virt pExtra tExtra]. destruct (tExtra p) as [e|] eqn:EX; cbn [option_map].
      * cbn [virt pExtra] in DE, SE. rewrite EX in DE, SE. destruct (zeroed_full dim rest (cnt k) (Hcnt k) esz e DE) as [FE _]. rewrite SE in FE. exact (proj1 (copy_spec dim rest _ _ _ _ FT FE)).
      * unfold shapeOk in SH. unfold extraSizes. destruct extra; [congruence|]. exact noExtra_full.
    + cbn [virt pGroups tGroups]. intros g' i j Eg' Hi Hj. rewrite Eg in Eg'. injection Eg' as <-. rewrite (full_size dim rest _ _ i FT) in Hj. pose proof FT as (_ & _ & ->). now apply VT.
    + intros i j Hi Hj. cbn [virt pExtra tExtra]. destruct (tExtra p) as [e|] eqn:EX; cbn [option_map].
      * cbn [virt pExtra] in DE, SE. rewrite EX in DE, SE. destruct (zeroed_full dim rest (cnt k) (Hcnt k) esz e DE) as [FE _]. rewrite SE in FE.
        destruct (copy_spec dim rest _ _ _ _ FT FE) as [_ VC]. rewrite VC by auto. destruct (EE g0 i (nth_error_In _ _ E0) Hi) as [Z0|Z0]; [lia|]. unfold dataSize in Z0.
        destruct (Z.ltb_spec j (nth (Z.to_nat i) (dSizes (gDsg g0)) 0)); [|lia]. apply VT; auto. unfold dataSize. lia.
      * unfold shapeOk in SH. unfold extraSizes in Hj. destruct extra; [congruence|]. rewrite noSizes_nth in Hj. lia.
  - unfold shapeOk in *. destruct extra; cbn [tExtra tGroups]; [destruct (tExtra p); cbn; congruence|]. destruct SH as [-> SZ]. split; auto. intros g' Hg'. destruct (SM k g' Hg') as [X|(g1 & H1 & ->)]; auto.
Qed.

(** The exchanged sparse grid during a combination. *)
Lemma sent_full : forall third k p0 p X, tInv third k p0 -> tMid third k (tGroups p0) p X -> full dim rest (U k) (sentDsg third p) /\
  forall i j, 0 <= i < n -> 0 <= j < nth (Z.to_nat i) (U k) 0 -> dData (sentDsg third p) (offS dim rest (U k) i + j) = X i j.
Proof.
  intros third k p0 p X [I SH0] [(L & F & FE & VO & VE) SH]. unfold sentDsg. pose proof I as (_ & _ & HO & _). cbn [virt pGroups] in HO. unfold shapeOk, extraSizes in *. cbn [virt pExtra pGroups] in *. destruct extra.
  - destruct (tExtra p) as [e|]; [|congruence]. auto.
  - destruct SH as [-> SZ]. destruct (nth_error_lt (tGroups p) third ltac:(lia)) as (g & Eg). destruct (nth_error_lt (tGroups p0) third HO) as (g0 & E0). rewrite (groupDsg_nth _ _ _ Eg).
    destruct (F third g0 g E0 Eg) as (_ & _ & FG). destruct SH0 as [_ SZ0]. rewrite (SZ0 g0) in FG by now apply nth_error_In in E0. split; auto.
    intros i j Hi Hj. pose proof (VO g i j Eg Hi) as V. rewrite (SZ g) in V by now apply nth_error_In in Eg. apply V. now rewrite (full_size dim rest _ _ i FG).
Qed.

Lemma receiveProc_mid : forall third k p0 p X vals, tInv third k p0 -> tMid third k (tGroups p0) p X -> length vals = Z.to_nat (zsum (U k)) ->
  tMid third k (tGroups p0) (receiveProc third (map2 Qcplus vals (rawValues (sentDsg third p))) p)
    (fun i j => if nth (Z.to_nat i) (U k) 0 =? 0 then X i j else (nth (Z.to_nat (offS dim rest (U k) i + j)) vals 0 + X i j)%Qc).
Proof.
  intros third k p0 p X vals I0 M LV. pose proof (sent_full third k p0 p X I0 M) as [FS VS]. destruct I0 as [I SH0]. destruct M as [M SH]. pose proof I as (G & SS & HO & DE & SE & EE & TT). cbn [virt pGroups] in HO.
  destruct (bool_dec extra true) as [EX|EX].
  - assert (RP : exists e, tExtra p = Some e) by (unfold shapeOk in SH; rewrite EX in SH; destruct (tExtra p) as [e|]; [eauto|congruence]). destruct RP as (e & Ee).
    assert (RE : virt (receiveProc third (map2 Qcplus vals (rawValues (sentDsg third p))) p) = readProc third (map2 Qcplus vals (rawValues (pExtra (virt p)))) (virt p)).
    { unfold receiveProc, sentDsg, virt, readProc. rewrite Ee. reflexivity. }
    split.
    + rewrite RE. assert (EU : extraSizes k = U k) by (unfold extraSizes; now rewrite EX). rewrite EU in *. apply (readProc_mid dim rest (cnt k) (Hcnt k)); auto.
      intros g0 i E0 Hi. apply EE; auto. now apply nth_error_In in E0.
    + unfold shapeOk in *. unfold receiveProc. rewrite Ee, EX. cbn. congruence.
  - apply not_true_is_false in EX. unfold shapeOk, extraSizes in *. rewrite EX in *. destruct SH as [NE SZ]. destruct SH0 as [_ SZ0]. unfold receiveProc, tMid, shapeOk, extraSizes. unfold sentDsg in *. rewrite EX, NE in *.
    destruct M as (L & F & FE & VO & VE). cbn [virt pGroups tGroups] in L, F, VO.
    destruct (nth_error_lt (tGroups p) third ltac:(lia)) as (g & Eg). rewrite (groupDsg_nth _ _ _ Eg) in *. destruct (full_len dim rest _ _ FS) as (LS & _ & TS).
    assert (SZ' : forall g', In g' (mapDsgs (fun r d => if Nat.eqb r third then withRaw (map2 Qcplus vals (rawValues (gDsg g))) d else d) (tGroups p)) -> dSizes (gDsg g') = U k).
    { intros g' Hg'. apply mapDsgs_In in Hg'. destruct Hg' as (r & g1 & _ & H1 & ->). cbn [withDsg gDsg]. destruct (Nat.eqb r third); cbn [withRaw withData dSizes]; now apply SZ. }
    split; [|split; [reflexivity|exact SZ']].
    split; [cbn [virt pGroups tGroups]; rewrite mapDsgs_length; exact L|]. cbn [virt pGroups pExtra tGroups tExtra]. split; [|split; [exact noExtra_full|split]].
    + intros r a b Ea Eb. rewrite mapDsgs_nth in Eb. destruct (nth_error (tGroups p) r) as [b0|] eqn:E1; [|discriminate]. injection Eb as <-. cbn [withDsg gTasks gComms gDsg].
      destruct (F r a b0 Ea E1) as (A & B & C). split; auto. split; auto. destruct (Nat.eqb r third); [now apply full_data|exact C].
    + intros g' i j Eg' Hi Hj. rewrite mapDsgs_nth, Eg in Eg'. injection Eg' as <-. rewrite Nat.eqb_refl in *. cbn [withDsg gDsg] in *. cbn [withRaw withData dData dSizes] in *.
      assert (SG : dSizes (gDsg g) = U k) by (apply SZ; now apply nth_error_In in Eg). unfold dataSize in Hj. cbn [withRaw withData dSizes] in Hj. rewrite SG in *.
      destruct (full_ptr dim rest _ _ i FS Hi) as (_ & P0 & P1). rewrite LS. destruct (Z.leb_spec 0 (offS dim rest (U k) i + j)); [|lia]. destruct (Z.ltb_spec (offS dim rest (U k) i + j) (zsum (U k))); [|lia]. cbn [andb].
      destruct (Z.eqb_spec (nth (Z.to_nat i) (U k) 0) 0) as [Z0|Z0]; [lia|].
      rewrite (map2_nth _ _ _ _ vals _ _ 0%Qc 0%Qc 0%Qc) by (rewrite ?LV, ?(rawValues_length dim rest (cnt k) (Hcnt k) (U k)) by auto; lia). rewrite (rawValues_nth dim rest (cnt k) (Hcnt k) (U k)) by (auto; lia). now rewrite VS.
    + intros i j Hi Hj. rewrite noSizes_nth in Hj. lia.
Qed.

Lemma endProc_spec : forall third k p0 p X W, tInv third k p0 -> tMid third k (tGroups p0) p X ->
  (forall g c i j, In g (tGroups p0) -> In c (gTasks g) -> 0 <= i < n -> containsL c (lvl i) -> 0 <= j < cnt k (lvl i) -> X i j = W (lvl i) j) ->
  exists p', endProc levels third p = Some p' /\ tInv third k p' /\ Forall2 (fun g g' => stepped W (fun l => In l levels) g g') (tGroups p0) (tGroups p').
Proof.
  intros third k p0 p X W [I SH0] [M SH] HX. destruct (finishProc_spec dim rest HL (cnt k) (Hcnt k) third (extraSizes k) (virt p0) (virt p) X W I M HX) as (pr' & EF & I' & ST).
  unfold finishProc in EF. unfold endProc. cbn [virt pGroups] in EF. fold levels in EF. destruct (broadcastOut third (tGroups p)) as [gs|]; [|discriminate]. destruct (mapO _ gs) as [gs'|]; [|discriminate]. injection EF as <-.
  eexists. split; [reflexivity|]. cbn [virt pGroups] in ST. cbn [tGroups]. split; auto. split; [exact I'|].
  unfold shapeOk in *. cbn [tExtra tGroups]. destruct extra; [exact SH|]. destruct SH as [A _]. split; auto. destruct SH0 as [_ B]. intros g' Hg'. destruct (Forall2_In_r _ _ _ _ ST Hg') as (g & Hg & (_ & SZ & _)). rewrite SZ. auto.
Qed.

Lemma U_cases : forall third k p g i, tInv third k p -> In g (tGroups p) -> 0 <= i < n -> nth (Z.to_nat i) (U k) 0 = 0 \/ nth (Z.to_nat i) (U k) 0 = dataSize (gDsg g) i.
Proof.
  intros third k p g i [I SH] Hg Hi. destruct I as (_ & _ & _ & _ & _ & EE & _). unfold shapeOk, extraSizes in *. destruct extra; [now apply (EE g i)|]. right. destruct SH as [_ SZ]. unfold dataSize. now rewrite (SZ g Hg).
Qed.

(** ** One system *)
Definition tTasks (S : TSys) (k : nat) : list Comp := match nth_error (tProcs S) k with Some p => allTasks (tGroups p) | None => [] end.
Definition tsInv (third : nat) (S : TSys) : Prop := tThird S = third /\ length (tProcs S) = np /\ tCounts S = map (fun k => zsum (U k)) (seq 0 np) /\
  forall k p, nth_error (tProcs S) k = Some p -> tInv third k p.
Definition tsMid (third : nat) (S R : TSys) (X : nat -> Z -> Z -> Qc) : Prop := tThird R = third /\ length (tProcs R) = np /\ tCounts R = map (fun k => zsum (U k)) (seq 0 np) /\
  forall k p0 p, nth_error (tProcs S) k = Some p0 -> nth_error (tProcs R) k = Some p -> tMid third k (tGroups p0) p (X k).

Lemma prepareSys_spec : forall mc third S, 0 < mc < 2 ^ 31 -> tsInv third S -> exists R, prepareSys esz mc levels S = Some R /\ tsMid third S R (fun k i j => weightedSum (tTasks S k) (lvl i) j).
Proof.
  intros mc third S HMC (T & L & C & I). unfold prepareSys. rewrite T.
  destruct (mapO_nth (fun k p p' => tMid third k (tGroups p) p' (fun i j => weightedSum (allTasks (tGroups p)) (lvl i) j)) (prepareProc esz mc levels third) (tProcs S)) as (ps & EP & LP & FP).
  { intros k p Ep. apply prepareProc_spec; auto. }
  rewrite EP. eexists. split; [reflexivity|]. split; [reflexivity|]. cbn [tProcs tCounts]. split; [lia|]. split; [exact C|]. intros k p0 p E0 E1. destruct (FP k p0 E0) as (b & Eb & _ & M). rewrite E1 in Eb. injection Eb as <-. unfold tTasks. rewrite E0. exact M.
Qed.

Lemma blocks_spec : forall third S R X, tsInv third S -> tsMid third S R X -> exists b, blocksToSend R = Some b /\ b = map (fun p => rawValues (sentDsg third p)) (tProcs R) /\ wlen np U b /\
  forall k i j, (k < np)%nat -> 0 <= i < n -> 0 <= j < nth (Z.to_nat i) (U k) 0 -> nth (Z.to_nat (offS dim rest (U k) i + j)) (nth k b []) 0%Qc = X k i j.
Proof.
  intros third S R X (TS & LS & CS & I) (T & L & C & M). unfold blocksToSend. rewrite T. set (b := map (fun p => rawValues (sentDsg third p)) (tProcs R)).
  assert (B : forall k, (k < np)%nat -> exists p0 p, nth_error (tProcs S) k = Some p0 /\ nth_error (tProcs R) k = Some p /\ nth k b [] = rawValues (sentDsg third p) /\ full dim rest (U k) (sentDsg third p) /\
     forall i j, 0 <= i < n -> 0 <= j < nth (Z.to_nat i) (U k) 0 -> dData (sentDsg third p) (offS dim rest (U k) i + j) = X k i j).
  { intros k Hk. destruct (nth_error_lt (tProcs S) k ltac:(lia)) as (p0 & E0). destruct (nth_error_lt (tProcs R) k ltac:(lia)) as (p & Ep). exists p0, p. split; auto. split; auto. split.
    - unfold b. apply nth_error_nth. rewrite nth_error_map'. now rewrite Ep.
    - apply (sent_full third k p0 p (X k)); auto. }
  assert (W : wlen np U b). { split; [unfold b; now rewrite map_length|]. intros k Hk. destruct (B k Hk) as (p0 & p & _ & _ & -> & F & _). now apply (rawValues_length dim rest (cnt k) (Hcnt k)). }
  assert (EC : map (fun b => Z.of_nat (length b)) b = tCounts R).
  { rewrite C. apply nth_ext with (d := 0) (d' := 0); [unfold b; rewrite !map_length, seq_length; exact L|]. intros k Hk. unfold b in Hk. rewrite !map_length, L in Hk.
    rewrite (nth_indep _ 0 (Z.of_nat (length (@nil Qc)))) by (unfold b; now rewrite !map_length, L). rewrite (map_nth (fun b => Z.of_nat (length b))). destruct W as [_ W]. rewrite W by auto.
    rewrite nth_map_seq by auto. destruct (B k Hk) as (p0 & p & _ & _ & _ & F & _). destruct (full_len dim rest _ _ F) as (_ & _ & TL). lia. }
  destruct (list_eq_dec Z.eq_dec (map (fun b => Z.of_nat (length b)) b) (tCounts R)) as [_|NE]; [|contradiction]. exists b. split; auto. split; auto. split; auto.
  intros k i j Hk Hi Hj. destruct (B k Hk) as (p0 & p & _ & _ & -> & F & V). destruct (full_ptr dim rest _ _ i F Hi) as (_ & P0 & P1). rewrite (rawValues_nth dim rest (cnt k) (Hcnt k) (U k)) by (auto; lia). now apply V.
Qed.

Definition steppedSys (W : nat -> list Z -> Z -> Qc) (S S' : TSys) : Prop := forall k p, nth_error (tProcs S) k = Some p ->
  exists p', nth_error (tProcs S') k = Some p' /\ Forall2 (fun g g' => stepped (W k) (fun l => In l levels) g g') (tGroups p) (tGroups p').

Lemma receiveSys_spec : forall third S R X b other W, tsInv third S -> tsMid third S R X -> b = map (fun p => rawValues (sentDsg third p)) (tProcs R) -> wlen np U b -> wlen np U other ->
  (forall k c i j, (k < np)%nat -> In c (tTasks S k) -> 0 <= i < n -> containsL c (lvl i) -> 0 <= j < cnt k (lvl i) ->
     (if nth (Z.to_nat i) (U k) 0 =? 0 then X k i j else (nth (Z.to_nat (offS dim rest (U k) i + j)) (nth k other []) 0 + X k i j)%Qc) = W k (lvl i) j) ->
  exists S', receiveSys levels (map2 (map2 Qcplus) other b) R = Some S' /\ tsInv third S' /\ steppedSys W S S'.
Proof.
  intros third S R X b other W (TS & LS & CS & I) (T & L & C & M) EB WB WO HX. unfold receiveSys. rewrite T. set (bs := map2 (map2 Qcplus) other b).
  assert (LBS : length bs = np) by (unfold bs; rewrite map2_length; [apply WO|destruct WO as [-> _], WB as [-> _]; reflexivity]).
  destruct (mapO_nth (fun k (vp : list Qc * TProc) p' => forall p0, nth_error (tProcs S) k = Some p0 -> tInv third k p' /\ Forall2 (fun g g' => stepped (W k) (fun l => In l levels) g g') (tGroups p0) (tGroups p'))
     (fun vp => endProc levels third (receiveProc third (fst vp) (snd vp))) (combine bs (tProcs R))) as (ps & EP & LP & FP).
  { intros k [v p] Ek. assert (Hk : (k < np)%nat) by (assert (k < length (combine bs (tProcs R)))%nat by (apply nth_error_Some; congruence); rewrite combine_length in *; lia).
    destruct (nth_error_lt (tProcs S) k ltac:(lia)) as (p0 & E0). destruct (nth_error_lt (tProcs R) k ltac:(lia)) as (p1 & E1).
    assert (EC : nth_error (combine bs (tProcs R)) k = Some (nth k bs [], p1)).
    { rewrite (nth_error_nth' _ ([], p1)) by (rewrite combine_length; lia). rewrite combine_nth by lia. now rewrite (nth_error_nth _ _ _ E1). }
    rewrite EC in Ek. injection Ek as <- <-. cbn [fst snd].
    assert (EN : nth k bs [] = map2 Qcplus (nth k other []) (rawValues (sentDsg third p1))).
    { unfold bs. rewrite (map2_nth _ _ _ _ other b k [] [] []) by (rewrite ?(proj1 WO), ?(proj1 WB); lia). f_equal. rewrite EB. apply nth_error_nth. rewrite nth_error_map'. now rewrite E1. }
    rewrite EN. destruct (endProc_spec third k p0 (receiveProc third (map2 Qcplus (nth k other []) (rawValues (sentDsg third p1))) p1) _ (W k) (I k p0 E0)
       (receiveProc_mid third k p0 p1 (X k) (nth k other []) (I k p0 E0) (M k p0 p1 E0 E1) (proj2 WO k Hk))) as (p' & Ee & Ie & Se).
    - intros g c i j Hg Hc Hi Hcl Hj. cbv beta. apply (HX k c i j); auto. unfold tTasks. rewrite E0. unfold allTasks. apply in_flat_map. eauto.
    - exists p'. split; auto. intros p0' E0'. rewrite E0 in E0'. injection E0' as <-. auto. }
  rewrite EP. eexists. split; [reflexivity|]. rewrite combine_length in LP.
  assert (Q : forall k p0, nth_error (tProcs S) k = Some p0 -> exists p', nth_error ps k = Some p' /\ tInv third k p' /\ Forall2 (fun g g' => stepped (W k) (fun l => In l levels) g g') (tGroups p0) (tGroups p')).
  { intros k p0 E0. assert (Hk : (k < np)%nat) by (rewrite <- LS; apply nth_error_Some; congruence). destruct (nth_error_lt (combine bs (tProcs R)) k ltac:(rewrite combine_length; lia)) as (vp & Ev).
    destruct (FP k vp Ev) as (p' & E' & _ & K). exists p'. split; auto. }
  split.
  - split; [reflexivity|]. cbn [tProcs tCounts]. split; [lia|]. split; [exact C|]. intros k p' E'. assert (Hk : (k < length ps)%nat) by (apply nth_error_Some; congruence). destruct (nth_error_lt (tProcs S) k ltac:(lia)) as (p0 & E0).
    destruct (Q k p0 E0) as (p1 & E1 & I1 & _). rewrite E' in E1. now injection E1 as <-.
  - intros k p0 E0. destruct (Q k p0 E0) as (p1 & E1 & _ & S1). eauto.
Qed.

(** ** Both *)
Definition uOk (S1 S2 : TSys) : Prop := forall k i c c', (k < np)%nat -> 0 <= i < n -> 0 < cnt k (lvl i) -> In c (tTasks S1 k) -> In c' (tTasks S2 k) -> containsL c (lvl i) -> containsL c' (lvl i) -> nth (Z.to_nat i) (U k) 0 <> 0.

Lemma tasks_good : forall third S k, tsInv third S -> Forall (goodComp dim) (tTasks S k).
Proof.
  intros third S k (_ & _ & _ & I). unfold tTasks. destruct (nth_error (tProcs S) k) as [p|] eqn:E; [|constructor]. destruct (I k p E) as [(G & _) _]. cbn [virt pGroups] in G.
  apply Forall_forall. intros c Hc. unfold allTasks in Hc. apply in_flat_map in Hc. destruct Hc as (g & Hg & Hc). rewrite Forall_forall in G. destruct (G g Hg) as ((GC & _) & _). rewrite Forall_forall in GC. auto.
Qed.
Lemma weightedSum_app : forall a b l j, weightedSum (a ++ b) l j = (weightedSum a l j + weightedSum b l j)%Qc.
Proof. intros. unfold weightedSum. now rewrite map_app, qsum_app. Qed.

(** What one system gets, with the blocks [other] of the other system. *)
Lemma value_spec : forall third third' S S' other W, tsInv third S -> tsInv third' S' -> uOk S S' ->
  (forall k i j, (k < np)%nat -> 0 <= i < n -> 0 <= j < nth (Z.to_nat i) (U k) 0 -> nth (Z.to_nat (offS dim rest (U k) i + j)) (nth k other []) 0%Qc = weightedSum (tTasks S' k) (lvl i) j) ->
  (forall k l j, W k l j = (weightedSum (tTasks S k) l j + weightedSum (tTasks S' k) l j)%Qc) ->
  forall k c i j, (k < np)%nat -> In c (tTasks S k) -> 0 <= i < n -> containsL c (lvl i) -> 0 <= j < cnt k (lvl i) ->
     (if nth (Z.to_nat i) (U k) 0 =? 0 then weightedSum (tTasks S k) (lvl i) j else (nth (Z.to_nat (offS dim rest (U k) i + j)) (nth k other []) 0 + weightedSum (tTasks S k) (lvl i) j)%Qc) = W k (lvl i) j.
Proof.
  intros third third' S S' other W I I' UO HO HW k c i j Hk Hc Hi Hcl Hj. rewrite HW. destruct (Z.eqb_spec (nth (Z.to_nat i) (U k) 0) 0) as [Z0|Z0].
  - assert (N : weightedSum (tTasks S' k) (lvl i) j = 0%Qc).
    { apply (notContained_zero dim rest HL HP (tTasks S' k)); auto; [now apply (tasks_good third')|]. intros c' Hc' X. apply (UO k i c c' Hk Hi ltac:(lia) Hc Hc' Hcl X). exact Z0. }
    rewrite N. ring.
  - assert (SZ : nth (Z.to_nat i) (U k) 0 = cnt k (lvl i)).
    { unfold tTasks in Hc. destruct (nth_error (tProcs S) k) as [p|] eqn:E; [|destruct Hc]. unfold allTasks in Hc. apply in_flat_map in Hc. destruct Hc as (g & Hg & Hc). destruct I as (_ & _ & _ & I). specialize (I k p E).
      destruct (U_cases third k p g i I Hg Hi) as [X|X]; [contradiction|]. rewrite X. destruct I as [(G & _) _]. cbn [virt pGroups] in G. rewrite Forall_forall in G. destruct (G g Hg) as (_ & _ & SO). exact (SO c i Hc Hi Hcl). }
    rewrite HO by (auto; lia). ring.
Qed.

Lemma blocks_comm : forall a b, wlen np U a -> wlen np U b -> map2 (map2 Qcplus) a b = map2 (map2 Qcplus) b a.
Proof.
  intros a b WA WB. assert (LA : length a = length b) by (destruct WA, WB; congruence). apply nth_ext with (d := []) (d' := []); [rewrite !map2_length; auto|]. intros k Hk. rewrite map2_length in Hk by auto.
  assert (Hk' : (k < np)%nat) by (destruct WA as [<- _]; exact Hk). rewrite (map2_nth _ _ _ _ a b k [] [] []) by lia. rewrite (map2_nth _ _ _ _ b a k [] [] []) by lia. destruct WA as [_ WA], WB as [_ WB]. specialize (WA k Hk'). specialize (WB k Hk'). apply (map2_comm idA idA). lia.
Qed.

Lemma combineTcp_spec : forall mc1 mc2 t1 t2 S1 S2, 0 < mc1 < 2 ^ 31 -> 0 < mc2 < 2 ^ 31 -> tsInv t1 S1 -> tsInv t2 S2 -> uOk S1 S2 -> (forall k, (k < np)%nat -> 0 < zsum (U k)) ->
  exists R1 R2 b1 b2 S1' S2', prepareSys esz mc1 levels S1 = Some R1 /\ prepareSys esz mc2 levels S2 = Some R2 /\ blocksToSend R1 = Some b1 /\ blocksToSend R2 = Some b2 /\
    matching RCombine {| blocks := b1; sizes := [] |} {| blocks := b2; sizes := [] |} /\
    combineTcp esz levels mc1 mc2 S1 S2 S1' S2' /\ (forall S1'' S2'', combineTcp esz levels mc1 mc2 S1 S2 S1'' S2'' -> S1'' = S1' /\ S2'' = S2') /\
    tsInv t1 S1' /\ tsInv t2 S2' /\ steppedSys (fun k => weightedSum (tTasks S1 k ++ tTasks S2 k)) S1 S1' /\ steppedSys (fun k => weightedSum (tTasks S1 k ++ tTasks S2 k)) S2 S2'.
Proof.
  intros mc1 mc2 t1 t2 S1 S2 HM1 HM2 I1 I2 UO HU.
  destruct (prepareSys_spec mc1 t1 S1 HM1 I1) as (R1 & E1 & M1). destruct (prepareSys_spec mc2 t2 S2 HM2 I2) as (R2 & E2 & M2).
  destruct (blocks_spec t1 S1 R1 _ I1 M1) as (b1 & B1 & EB1 & W1 & V1). destruct (blocks_spec t2 S2 R2 _ I2 M2) as (b2 & B2 & EB2 & W2 & V2).
  assert (HM : matching RCombine {| blocks := b1; sizes := [] |} {| blocks := b2; sizes := [] |}).
  { cbn [matching blocks]. split; [now apply (wlen_map np U)|]. apply Forall_forall. intros b Hb X. destruct (wlen_In np U b1 b W1 Hb) as (k & Hk & LB). specialize (HU k Hk). rewrite X in LB. cbn in LB. lia. }
  assert (UO' : uOk S2 S1) by (intros k i c c' Hk Hi Hc H1 H2 C1 C2; now apply (UO k i c' c)).
  destruct (receiveSys_spec t1 S1 R1 _ b1 b2 (fun k => weightedSum (tTasks S1 k ++ tTasks S2 k)) I1 M1 EB1 W1 W2) as (S1' & ES1 & IS1 & ST1).
  { apply (value_spec t1 t2 S1 S2 b2 (fun k => weightedSum (tTasks S1 k ++ tTasks S2 k))); auto. intros k l j. apply weightedSum_app. }
  destruct (receiveSys_spec t2 S2 R2 _ b2 b1 (fun k => weightedSum (tTasks S1 k ++ tTasks S2 k)) I2 M2 EB2 W2 W1) as (S2' & ES2 & IS2 & ST2).
  { apply (value_spec t2 t1 S2 S1 b1 (fun k => weightedSum (tTasks S1 k ++ tTasks S2 k))); auto. intros k l j. rewrite weightedSum_app. ring. }
  rewrite (blocks_comm b2 b1) in ES1 by auto.
  exists R1, R2, b1, b2, S1', S2'. split; auto. split; auto. split; auto. split; auto. split; auto.
  pose proof (exchanged_iff RCombine {| blocks := b1; sizes := [] |} {| blocks := b2; sizes := [] |}) as EX. cbn [afterRound withBlocks blocks sizes] in EX. unfold sumBlocks in EX.
  split; [|split; [|auto]].
  - exists R1, R2, b1, b2. do 2 eexists. split; [exact E1|]. split; [exact E2|]. split; [exact B1|]. split; [exact B2|]. split; [apply EX; [exact HM|reflexivity]|]. cbn [blocks]. auto.
  - intros S1'' S2'' (R1' & R2' & b1' & b2' & e1 & e2 & F1 & F2 & G1 & G2 & X & H1 & H2).
    rewrite E1 in F1. injection F1 as <-. rewrite E2 in F2. injection F2 as <-. rewrite B1 in G1. injection G1 as <-. rewrite B2 in G2. injection G2 as <-. apply EX in X; auto. injection X as -> ->. cbn [blocks withBlocks] in H1, H2.
    rewrite ES1 in H1. rewrite ES2 in H2. split; congruence.
Qed.

Lemma combineTcp_none : forall mc1 mc2 t1 t2 S1 S2 k, 0 < mc1 < 2 ^ 31 -> 0 < mc2 < 2 ^ 31 -> tsInv t1 S1 -> tsInv t2 S2 -> (k < np)%nat -> zsum (U k) = 0 ->
  forall S1' S2', ~ combineTcp esz levels mc1 mc2 S1 S2 S1' S2'.
Proof.
  intros mc1 mc2 t1 t2 S1 S2 k HM1 HM2 I1 I2 Hk ZU S1' S2' (R1' & R2' & b1' & b2' & e1 & e2 & F1 & F2 & G1 & G2 & X & _).
  destruct (prepareSys_spec mc1 t1 S1 HM1 I1) as (R1 & E1 & M1). destruct (prepareSys_spec mc2 t2 S2 HM2 I2) as (R2 & E2 & M2).
  destruct (blocks_spec t1 S1 R1 _ I1 M1) as (b1 & B1 & _ & W1 & _). destruct (blocks_spec t2 S2 R2 _ I2 M2) as (b2 & B2 & _ & W2 & _).
  rewrite E1 in F1. injection F1 as <-. rewrite E2 in F2. injection F2 as <-. rewrite B1 in G1. injection G1 as <-. rewrite B2 in G2. injection G2 as <-.
  revert X. apply not_exchanged; cbn [blocks]; [now apply (wlen_map np U)|]. destruct W1 as [L1 W1]. specialize (W1 k Hk). rewrite ZU in W1. destruct (nth k b1 []) eqn:EN; [|discriminate W1]. rewrite <- EN. apply nth_In. lia.
Qed.
End Tcp.
