(** Lemmas about the combination of several systems in chunks: one process. *)
From Verif Require Import Base TensorModel Level1dModel LevelSetsModel LevelSetsProofs SubspaceModel CombiSchemeModel Hier1dModel Hier1dProofs HierMassProofs
  DofProofs SparseGridModel SparseGridProofs CombineModel SparseTransferProofs SparseGridProps ReduceModel ReduceProofs VoteProofs SubspaceReduceProofs
  CombiStepModel CombiStepProofs CombiInitProofs FileModel FileProps ExchangeModel WideModel WideProofs WideChunkedModel.
From Coq Require Import QArith Qcanon Permutation.
Open Scope Z_scope.
Ltac Zify.zify_post_hook ::= idtac.

Lemma scatter_same : forall f A buf k, scatterV A (map f A) buf k = if memZ k A then f k else buf k.
Proof.
  intros f. induction A as [|a A IH]; intros buf k; [reflexivity|]. cbn [map scatterV]. rewrite IH. change (memZ k (a :: A)) with ((k =? a) || memZ k A).
  unfold setA. destruct (memZ k A); [now rewrite orb_true_r|]. rewrite orb_false_r. destruct (Z.eqb_spec k a) as [->|N]; auto.
Qed.

Lemma takeChunk_all : forall sz mc l cur, 0 <= cur -> (forall i, In i l -> 0 < sz i) -> cur + sizeSum sz l < mc -> mc < 2 ^ 32 -> takeChunk sz mc cur l = (l, []).
Proof.
  intros sz mc. induction l as [|s l IH]; intros cur H0 HP HS HM; [reflexivity|]. unfold sizeSum in HS. cbn [map] in HS. change (zsum (?a :: ?b)) with (a + zsum b) in HS.
  fold (sizeSum sz l) in HS. pose proof (HP s (or_introl eq_refl)) as Ps.
  assert (SN : 0 <= sizeSum sz l).
  { clear - HP. assert (H : forall i, In i l -> 0 < sz i) by (intros; apply HP; now right). clear HP. unfold sizeSum. induction l as [|x l IH]; [apply Z.le_refl|]. cbn [map]. change (zsum (?a :: ?b)) with (a + zsum b).
    pose proof (H x (or_introl eq_refl)). specialize (IH (fun i Hi => H i (or_intror Hi))). lia. }
  assert (U1 : u32 (cur + sz s) = cur + sz s) by (unfold u32; apply Z.mod_small; lia).
  assert (U2 : u64 mc = mc) by (unfold u64; apply Z.mod_small; lia).
  cbn [takeChunk]. destruct (Z.eqb_spec (sz s) 0); [lia|]. rewrite U1, U2. destruct (Z.ltb_spec (cur + sz s) mc); [|lia]. rewrite IH; auto; [lia| |lia]. intros i Hi. apply HP. now right.
Qed.
Lemma chunked_one : forall sz mc l, l <> [] -> (forall i, In i l -> 0 < sz i) -> (sizeSum sz l < mc \/ length l = 1%nat) -> mc < 2 ^ 32 -> getChunkedSubspaces sz mc l = [l].
Proof.
  intros sz mc l N HP HS HM. destruct l as [|s l]; [contradiction|]. unfold getChunkedSubspaces. cbn [length chunkedSubspaces].
  assert (HT : takeChunk sz mc (u32 (0 + sz s)) l = (l, [])).
  { destruct HS as [HS|HS]; [|destruct l; [reflexivity|discriminate]]. unfold sizeSum in HS. cbn [map] in HS. change (zsum (?a :: ?b)) with (a + zsum b) in HS. fold (sizeSum sz l) in HS.
    pose proof (HP s (or_introl eq_refl)) as Ps.
    assert (SN : 0 <= sizeSum sz l).
    { clear - HP. assert (H : forall i, In i l -> 0 < sz i) by (intros; apply HP; now right). clear HP. unfold sizeSum. induction l as [|x l IH]; [apply Z.le_refl|]. cbn [map]. change (zsum (?a :: ?b)) with (a + zsum b).
      pose proof (H x (or_introl eq_refl)). specialize (IH (fun i Hi => H i (or_intror Hi))). lia. }
    assert (U1 : u32 (0 + sz s) = sz s) by (unfold u32; apply Z.mod_small; lia). rewrite U1. apply takeChunk_all; auto; [lia|]. intros i Hi. apply HP. now right. }
  rewrite HT. destruct (length l); reflexivity.
Qed.

Lemma before_ext : forall s s' w i, (forall x, In x w -> nth (Z.to_nat x) s 0 = nth (Z.to_nat x) s' 0) -> before s w i = before s' w i.
Proof.
  intros s s' w i H. unfold before. f_equal. apply map_ext. intros j. destruct (memZ j w) eqn:M; auto. apply H. now apply memZ_In.
Qed.

Lemma stepped_over : forall S T (P Q : list Z -> Prop) g g' g'', (forall l, Q l \/ ~ Q l) -> (forall l, Q l -> P l) -> stepped S P g g' -> stepped T Q g' g'' ->
  (forall c l j, In c (gTasks g) -> P l -> ~ Q l -> containsL c l -> (j < length (pointsOf c l))%nat -> S l (Z.of_nat j) = T l (Z.of_nat j)) ->
  stepped T P g g''.
Proof.
  intros S T P Q g g' g'' D QP (U1 & S1 & C1) (U2 & S2 & C2) HV. split; [|split; congruence]. revert U2. generalize (gTasks g''). clear S1 C1 S2 C2.
  induction U1 as [|c c' cs cs' H1 U1 IH]; intros cs'' U2; inversion U2 as [|? c'' ? cs0 H2 U2']; subst; constructor.
  - destruct H1 as [E1 V1], H2 as [E2 V2]. split; [rewrite E2, E1; reflexivity|]. intros l j Hl Hj k.
    assert (G : cGrid c' = cGrid c) by now rewrite E1. unfold containsL, pointsOf in V2. rewrite G in V2.
    destruct (V1 l j Hl Hj) as [A1 A2], (V2 l j Hl Hj) as [B1 B2]. split.
    + intros X. destruct (D l) as [Y|Y]; [unfold k; now apply B1|]. unfold k. etransitivity; [exact (B2 Y)|]. etransitivity; [exact (A1 X)|]. apply (HV c); auto. now left.
    + intros X. unfold k. etransitivity; [apply B2; intros Y; apply X; now apply QP|]. now apply A2.
  - apply IH; auto. intros c0 l j Hc. apply HV. now right.
Qed.
Lemma stepped_refl : forall T g, stepped T (fun _ => False) g g.
Proof. intros T g. split; [|split; reflexivity]. induction (gTasks g); constructor; auto. apply updated_refl. Qed.

Section Proc.
Variables (dim : nat) (rest : list (list Z)).
Let levels := repeat 1 dim :: rest.
Hypothesis HL : sortedLevels dim levels.
Hypothesis HP : Forall (Forall (Z.le 1)) levels.
Let n := Z.of_nat (length levels).
Let lvl (i : Z) := nth (Z.to_nat i) levels [].

Lemma copySome_spec : forall o d l, ready levels o -> ready levels d -> (forall x, In x l -> In x (dWith d)) ->
  sameShape d (copySome o d l) /\ dKahan (copySome o d l) = dKahan d /\
  forall i j, In i (dWith d) -> 0 <= j < dataSize d i ->
    dData (copySome o d l) (off d i + j) = if memZ i l && (j <? dataSize o i) then dData o (off o i + j) else dData d (off d i + j).
Proof.
  intros o d l RO RD. assert (RG : forall x, In x (dWith d) -> 0 <= x < n) by (intros x Hx; destruct RD as ((_ & _ & (_ & G) & _) & _); now apply G).
  intros Hl. split; [repeat split|]. split; [reflexivity|]. unfold copySome. cbn [withData dData]. revert Hl. generalize (dData d). induction l as [|x l IH]; intros a Hl i j Hi Hj; [reflexivity|].
  cbn [fold_left]. rewrite IH by (auto; intros y Hy; apply Hl; now right). change (memZ i (x :: l)) with ((i =? x) || memZ i l).
  pose proof (Hl x (or_introl eq_refl)) as Wx. pose proof (RG x Wx) as Hx. pose proof (RG i Hi) as Hi'.
  assert (CS : copyOne o d a x (off d i + j) = if (i =? x) && (j <? dataSize o i) then dData o (off o i + j) else a (off d i + j)).
  { unfold copyOne. cbv zeta. destruct (ready_ptr levels o RO x Hx) as (-> & _). destruct (ready_ptr levels d RD x Hx) as (-> & _ & _).
    destruct (Z.eqb_spec i x) as [->|NX]; cbn [andb].
    - replace (off o x + (off d x + j - off d x)) with (off o x + j) by lia.
      destruct (Z.ltb_spec j (dataSize o x)); destruct (Z.leb_spec (off d x) (off d x + j)); destruct (Z.ltb_spec (off d x + j) (off d x + Z.min (dataSize o x) (dataSize d x))); cbn [andb]; auto; lia.
    - destruct (Z.leb_spec (off d x) (off d i + j)) as [A|A]; auto. destruct (Z.ltb_spec (off d i + j) (off d x + Z.min (dataSize o x) (dataSize d x))) as [B|B]; auto.
      exfalso. destruct (Z_lt_le_dec i x) as [X|X].
      + pose proof (off_disjoint levels d RD i x ltac:(lia) Hi). lia.
      + pose proof (off_disjoint levels d RD x i ltac:(lia) Wx). lia. }
  rewrite CS. destruct (i =? x), (memZ i l), (j <? dataSize o i); reflexivity.
Qed.

Variable cnt : list Z -> Z.
Hypothesis Hcnt : forall q, 0 <= cnt q < 2 ^ 32.
Variable E : list Z.
Let En (i : Z) := nth (Z.to_nat i) E 0.

(** The extra sparse grid has the values [W] for the subspaces [D]. *)
Definition holdsE (D : Z -> Prop) (W : list Z -> Z -> Qc) (e : DSG) : Prop :=
  full dim rest E e /\ forall i j, D i -> 0 <= i < n -> 0 <= j < En i -> dData e (offS dim rest E i + j) = W (lvl i) j.

Lemma holdsE_ext : forall (D D' : Z -> Prop) W e, (forall i, 0 <= i < n -> 0 < En i -> D' i -> D i) -> holdsE D W e -> holdsE D' W e.
Proof. intros D D' W e H [F V]. split; auto. intros i j Hd Hi Hj. apply V; auto. apply H; auto. lia. Qed.

Lemma keep_spec : forall ch W1 W D g e, keptIn dim rest ch W1 g -> goodSet n ch -> (forall i, In i ch -> En i = 0 \/ (En i = dataSize (gDsg g) i /\ En i = cnt (lvl i))) ->
  (forall i j, In i ch -> 0 < En i -> 0 <= j < cnt (lvl i) -> W1 (lvl i) j = W (lvl i) j) -> 0 < zsum E -> holdsE D W e ->
  exists e', keepChunk (gDsg g) e = Some e' /\ holdsE (fun i => In i ch \/ D i) W e'.
Proof.
  intros ch W1 W D g e (R & EW & V) [GS GR] HE HW PE [F VE]. unfold keepChunk. destruct (full_len dim rest E e F) as (LE & _). destruct (Z.eqb_spec (dLen e) 0) as [Z0|_]; [lia|].
  set (l := filter _ _). exists (copySome (gDsg g) e l). split; auto. pose proof F as (RE & WE & SE).
  assert (Hl : forall x, In x l <-> In x ch /\ En x <> 0).
  { intros x. unfold l. rewrite filter_In, EW, negb_true_iff, Z.eqb_neq. unfold dataSize, En. rewrite SE. tauto. }
  destruct (copySome_spec (gDsg g) e l R RE) as (Sh & EK & VC).
  { intros x Hx. apply Hl in Hx. rewrite WE. apply zrange_In. apply GR. tauto. }
  split; [now apply full_data|]. intros i j HD Hi Hj. rewrite <- (full_off dim rest E e i F). rewrite VC; [|rewrite WE; now apply zrange_In|rewrite (full_size dim rest E e i F); exact Hj].
  destruct (in_dec Z.eq_dec i ch) as [Y|Y].
  - destruct (HE i Y) as [Z0|[Z1 Z2]]; [unfold En in *; lia|]. rewrite (proj2 (memZ_In i l)) by (apply Hl; split; auto; unfold En in *; lia).
    destruct (Z.ltb_spec j (dataSize (gDsg g) i)); [|unfold En in *; lia]. cbn [andb]. rewrite V by (auto; lia). apply HW; auto; unfold En in *; lia.
  - assert (NM : memZ i l = false) by (apply not_true_iff_false; rewrite memZ_In, Hl; tauto). rewrite NM. cbn [andb]. rewrite (full_off dim rest E e i F). apply VE; auto. tauto.
Qed.

(** The sizes of the extra sparse grid fit the output group. *)
Definition extraFits (g : Group) : Prop := forall i, 0 <= i < n -> En i = 0 \/ (En i = dataSize (gDsg g) i /\ En i = cnt (lvl i)).
Lemma extraFits_sizes : forall g g', dSizes (gDsg g') = dSizes (gDsg g) -> extraFits g -> extraFits g'.
Proof. intros g g' S H i Hi. unfold dataSize. rewrite S. now apply H. Qed.

Lemma outRoundsKeep_spec : forall esz mc out W chs gs D e go, 0 < mc < 2 ^ 31 -> Forall (chunkGroupOk dim rest cnt) gs -> (forall g ch, In g gs -> In ch chs -> goodChunk dim rest g ch) -> agree gs (concat chs) ->
  NoDup (concat chs) -> (forall i j, In i (concat chs) -> 0 <= j < cnt (lvl i) -> weightedSum (allTasks gs) (lvl i) j = W (lvl i) j) ->
  nth_error gs out = Some go -> extraFits go -> 0 < zsum E -> holdsE D W e ->
  exists gs' e', outgroupRoundsKeep esz mc out levels (map (fun ch => repeat ch (length gs)) chs) gs e = Some (gs', e') /\
    Forall2 (fun g g' => stepped W (inChunk dim rest (concat chs)) g g' /\ chunkGroupOk dim rest cnt g') gs gs' /\ holdsE (fun i => In i (concat chs) \/ D i) W e'.
Proof.
  intros esz mc out W. induction chs as [|ch chs IH]; intros gs D e go HMC G GC AG ND HW Ego EF PE HE.
  - exists gs, e. split; [reflexivity|]. split.
    + clear - G. induction gs as [|g gs IHg]; constructor.
      * split; [|now apply Forall_inv in G]. apply (stepped_ext W (fun _ => False)); [intros c l _ _ _; unfold inChunk; cbn [concat In]; tauto|]. apply stepped_refl.
      * apply IHg. now apply Forall_inv_tail in G.
    + apply (holdsE_ext D) with (2 := HE). cbn. tauto.
  - cbn [concat] in *. destruct (NoDup_app_elim _ _ ND) as (ND1 & ND2 & DJ).
    destruct (outgroupRound_kept dim rest HL HP cnt Hcnt esz mc gs ch HMC G) as (gs1 & E1 & F1).
    { apply Forall_forall. intros g Hg. apply GC; auto. now left. }
    { intros g g' i Hg Hg' Hi. apply AG; auto. apply in_or_app. now left. }
    assert (L1 : length gs1 = length gs) by (clear - F1; induction F1; cbn; auto).
    assert (Hgo : In go gs) by now apply nth_error_In in Ego.
    assert (CG : forall i, In i (concat (ch :: chs)) -> 0 <= i < n).
    { intros i Hi. apply in_concat in Hi. destruct Hi as (c & Hc & Hi). destruct (GC go c Hgo Hc) as ((_ & X) & _). auto. }
    destruct (Forall2_nth_error _ _ _ _ _ F1 Ego) as (go1 & Ego1 & SGo & OGo & KGo).
    assert (EF1 : extraFits go1) by (apply (extraFits_sizes go); [apply SGo|exact EF]).
    destruct (keep_spec ch (weightedSum (allTasks gs)) W D go1 e KGo) as (e1 & Ek & HE1); auto.
    { destruct (GC go ch Hgo (or_introl eq_refl)) as (X & _). exact X. }
    { intros i Hi. apply EF1. apply CG. cbn [concat]. apply in_or_app. now left. }
    { intros i j Hi _ Hj. apply HW; auto. apply in_or_app. now left. }
    assert (F1' : Forall2 (fun g g' => stepped (weightedSum (allTasks gs)) (inChunk dim rest ch) g g' /\ chunkGroupOk dim rest cnt g') gs gs1).
    { clear - F1. revert F1. generalize (weightedSum (allTasks gs)). intros W1 F1. induction F1 as [|g g' gs gs' (A & B & _) F IH]; constructor; auto. }
    destruct (IH gs1 (fun i => In i ch \/ D i) e1 go1 HMC) as (gs2 & e2 & E2 & F2 & HE2); auto.
    { apply Forall_forall. intros g' Hg'. destruct (Forall2_In_r _ _ _ _ F1' Hg') as (g & _ & _ & H). exact H. }
    { intros g' c Hg' Hc. destruct (Forall2_In_r _ _ _ _ F1' Hg') as (g & Hg & (_ & S & _) & _). apply (goodChunk_sizes dim rest g); auto. apply GC; auto. now right. }
    { intros g g' i Hg Hg' Hi. destruct (Forall2_In_r _ _ _ _ F1' Hg) as (g0 & Hg0 & (_ & S & _) & _). destruct (Forall2_In_r _ _ _ _ F1' Hg') as (g0' & Hg0' & (_ & S' & _) & _).
      unfold dataSize. rewrite S, S'. apply AG; auto. apply in_or_app. now right. }
    { intros i j Hi Hj. assert (NN : 0 <= i < n) by (apply CG; cbn [concat]; apply in_or_app; now right).
      rewrite <- (HW i j) by (auto; apply in_or_app; now right). pose proof (allTasks_stepped _ _ _ _ _ F1') as U.
      apply (weightedSum_updated dim rest HL HP cnt _ _ _ _ _ _ U); auto.
      - apply tasksOk_flat. intros g Hg. rewrite Forall_forall in G. apply (G g Hg).
      - intros [_ X]. fold levels in X. rewrite (posLvl dim rest HL) in X by auto. apply (DJ i); auto. }
    exists gs2, e2. split; [|split].
    + cbn [map outgroupRoundsKeep]. fold levels in E1. rewrite E1, (groupDsg_nth gs1 out go1 Ego1), Ek. rewrite L1 in E2. exact E2.
    + clear E1 E2. assert (HWc : forall g c l j, In g gs -> In c (gTasks g) -> inChunk dim rest ch l -> containsL c l -> (j < length (pointsOf c l))%nat -> weightedSum (allTasks gs) l (Z.of_nat j) = W l (Z.of_nat j)).
      { intros g c l j Hg Hc [Hl Hp] Hcl Hj. destruct (position_In levels l Hl) as [P1 P2]. change (lvl (position levels l) = l) in P2. rewrite <- P2 at 1 2.
        apply HW; [apply in_or_app; now left|]. rewrite P2. rewrite Forall_forall in G. destruct (G g Hg) as ((_ & C) & _). rewrite <- (C c l); auto. lia. }
      revert gs2 F2 HE2. generalize (weightedSum (allTasks gs)) HWc F1'. clear. intros W1 HWc F1. induction F1 as [|g g1 gs gs1 [S1 O1] F1 IH]; intros gs2 F2 HE2; inversion F2 as [|? g2 ? gs2' [S2 O2] F2']; subst; constructor.
      * split; auto. apply (stepped_ext W (fun l => inChunk dim rest ch l \/ inChunk dim rest (concat chs) l)).
        -- intros c l _ _ _. unfold inChunk. rewrite in_app_iff. tauto.
        -- apply (stepped_trans W _ _ g g1 g2); auto; [apply inChunk_dec|]. apply (stepped_extW W1) with (2 := S1). intros c l j. apply HWc. now left.
      * apply IH; auto. intros g0 c l j Hg0. apply (HWc g0). now right.
    + apply (holdsE_ext _ _ _ _) with (2 := HE2). intros i _ _. rewrite in_app_iff. tauto.
Qed.

Lemma ingroup_one : forall esz ch g, chunkGroupOk dim rest cnt g -> goodChunk dim rest g ch ->
  exists g', ingroupRounds esz levels [ch] g = Some g' /\ stepped (weightedSum (gTasks g)) (inChunk dim rest ch) g g' /\ chunkGroupOk dim rest cnt g' /\ keptIn dim rest ch (weightedSum (gTasks g)) g'.
Proof.
  intros esz ch g G Gch. destruct (chunk_local dim rest HL HP cnt Hcnt esz ch g G Gch) as (d & Ea & R & ES & EW & L & V).
  destruct (chunk_distribute dim rest HL cnt Hcnt d d g ch (weightedSum (gTasks g)) G R ES EW) as (g1 & E1 & S1 & O1 & K1); auto; [apply Gch|apply sameShape_refl|].
  exists g1. split; auto. cbn [ingroupRounds]. replace (gTasks (allocateChunk esz ch g)) with (gTasks g) by reflexivity. fold levels in Ea, E1. rewrite Ea.
  replace (distribute false levels d (allocateChunk esz ch g)) with (distribute false levels d g) by reflexivity. now rewrite E1.
Qed.

Lemma inRoundsKeep_spec : forall esz W chs g D e, chunkGroupOk dim rest cnt g -> (forall ch, In ch chs -> goodChunk dim rest g ch) -> NoDup (concat chs) ->
  (forall i j, In i (concat chs) -> 0 < En i -> 0 <= j < cnt (lvl i) -> weightedSum (gTasks g) (lvl i) j = W (lvl i) j) ->
  extraFits g -> 0 < zsum E -> holdsE D W e ->
  exists g' e', ingroupRoundsKeep esz levels chs g e = Some (g', e') /\ holdsE (fun i => In i (concat chs) \/ D i) W e'.
Proof.
  intros esz W. induction chs as [|ch chs IH]; intros g D e G GC ND HW EF PE HE.
  - exists g, e. split; [reflexivity|]. apply (holdsE_ext D) with (2 := HE). cbn. tauto.
  - cbn [concat] in *. destruct (NoDup_app_elim _ _ ND) as (ND1 & ND2 & DJ).
    destruct (ingroup_one esz ch g G (GC ch (or_introl eq_refl))) as (g1 & E1 & S1 & O1 & K1).
    assert (EF1 : extraFits g1) by (apply (extraFits_sizes g); [apply S1|exact EF]).
    assert (CG : forall i, In i (concat (ch :: chs)) -> 0 <= i < n).
    { intros i Hi. apply in_concat in Hi. destruct Hi as (c & Hc & Hi). destruct (GC c Hc) as ((_ & X) & _). auto. }
    destruct (keep_spec ch (weightedSum (gTasks g)) W D g1 e K1) as (e1 & Ek & HE1); auto.
    { destruct (GC ch (or_introl eq_refl)) as (X & _). exact X. }
    { intros i Hi. apply EF1. apply CG. cbn [concat]. apply in_or_app. now left. }
    { intros i j Hi Hn Hj. apply HW; auto. apply in_or_app. now left. }
    destruct (IH g1 (fun i => In i ch \/ D i) e1 O1) as (g2 & e2 & E2 & HE2); auto.
    { intros c Hc. apply (goodChunk_sizes dim rest g); [apply S1|]. apply GC. now right. }
    { intros i j Hi Hn Hj. assert (NN : 0 <= i < n) by (apply CG; cbn [concat]; apply in_or_app; now right).
      rewrite <- (HW i j) by (auto; apply in_or_app; now right). destruct S1 as (U1 & _).
      apply (weightedSum_updated dim rest HL HP cnt _ _ _ _ _ _ U1); auto; [apply G|].
      intros [_ X]. fold levels in X. rewrite (posLvl dim rest HL) in X by auto. apply (DJ i); auto. }
    exists g2, e2. split.
    + cbn [ingroupRoundsKeep]. rewrite E1, Ek. exact E2.
    + apply (holdsE_ext _ _ _ _) with (2 := HE2). intros i _ _. rewrite in_app_iff. tauto.
Qed.

Lemma keep_groups : forall esz mc out rounds gs e gs' e', outgroupRoundsKeep esz mc out levels rounds gs e = Some (gs', e') -> outgroupRounds esz mc levels rounds gs = Some gs'.
Proof.
  intros esz mc out. induction rounds as [|chunks rounds IH]; intros gs e gs' e' H; cbn [outgroupRoundsKeep outgroupRounds] in *; [injection H as <- _; reflexivity|].
  destruct (outgroupRound esz mc levels chunks gs) as [g1|]; [|discriminate]. destruct (keepChunk (groupDsg g1 out) e) as [e1|]; [|discriminate]. now apply (IH g1 e1 gs' e').
Qed.

(** Between two combinations. *)
Definition chunkInv (out : nat) (is : list Z) (pr : Proc) : Prop :=
  Forall (chunkGroupOk dim rest cnt) (pGroups pr) /\ chunkedOk dim rest cnt (pGroups pr) is /\
  (exists go, nth_error (pGroups pr) out = Some go /\ extraFits go) /\
  (forall i r c, 0 <= i < n -> ~ In i is -> 0 < En i -> r <> out -> In c (tasksAt (pGroups pr) r) -> ~ containsL c (lvl i)) /\
  full dim rest E (pExtra pr) /\ 0 < zsum E.

Lemma collectKeep_spec : forall esz mc out is pr, 0 < mc < 2 ^ 31 -> chunkInv out is pr ->
  exists pr', collectKeep esz mc out levels pr = Some pr' /\
    Forall2 (fun g g' => (stepped (weightedSum (allTasks (pGroups pr))) (fun l => In l levels) g g' /\ chunkGroupOk dim rest cnt g') /\ dLen (gDsg g') = 0) (pGroups pr) (pGroups pr') /\
    holdsE (fun _ => True) (weightedSum (allTasks (pGroups pr))) (pExtra pr').
Proof.
  intros esz mc out is pr HMC (G & CK & (go & Ego & EF) & AL & FE & PE). pose proof CK as (GI & CO & AG & _). unfold collectKeep. cbv zeta. set (gs := pGroups pr) in *.
  destruct (collect_spec dim rest HL HP cnt Hcnt esz mc gs is HMC G CK) as (gs2 & EC & FC). unfold collectReduceDistribute in EC. cbv zeta in EC. fold levels in EC, FC.
  assert (Hgo : In go gs) by now apply nth_error_In in Ego.
  set (chs := getChunkedSubspaces (dataSize (gDsg go)) mc is).
  pose proof G as G'. rewrite Forall_forall in G'.
  assert (CE : forall g, In g gs -> outgroupChunks mc g = chs).
  { intros g Hg. unfold outgroupChunks, chs, getChunkedSubspaces. destruct (CO g Hg) as [[-> ->]|(M & ->)]; [reflexivity|]. cbn [snd]. apply chunked_ext. intros s Hs. now apply AG. }
  assert (MC : map (outgroupChunks mc) gs = repeat chs (length gs)).
  { clear - CE. induction gs as [|g gs IH]; auto. cbn [map length repeat]. rewrite CE by now left. f_equal. apply IH. intros x Hx. apply CE. now right. }
  rewrite MC in *. assert (M0 : match repeat chs (length gs) with [] => O | c :: _ => length c end = length chs) by (destruct gs; [destruct Hgo|reflexivity]).
  rewrite M0 in *. assert (FB : forallb (fun c => Nat.eqb (length c) (length chs)) (repeat chs (length gs)) = true).
  { apply forallb_forall. intros c Hc. apply repeat_spec in Hc. subst. apply Nat.eqb_refl. }
  rewrite FB in *. assert (RE : map (fun k => map (fun c => nth k c []) (repeat chs (length gs))) (seq 0 (length chs)) = map (fun ch => repeat ch (length gs)) chs).
  { transitivity (map (fun k => repeat (nth k chs []) (length gs)) (seq 0 (length chs))); [|rewrite <- (map_map (fun k => nth k chs []) (fun ch => repeat ch (length gs))), nth_seq_map; reflexivity].
    apply map_ext. intros k. generalize (length gs). intros m. induction m as [|m IH]; auto. cbn [repeat map]. now rewrite IH. }
  rewrite RE in *. destruct (chunks_good dim rest cnt Hcnt go mc is (G' go Hgo) HMC GI) as [CC _]. fold chs in CC.
  set (S := weightedSum (allTasks gs)) in *.
  destruct (outRoundsKeep_spec esz mc out S chs gs (fun _ => False) (pExtra pr) go HMC G) as (gs1 & e1 & E1 & F1 & HE1); auto.
  { intros g ch Hg Hch. apply (chunks_good dim rest cnt Hcnt g mc is (G' g Hg) HMC GI).
    assert (X : getChunkedSubspaces (dataSize (gDsg g)) mc is = chs) by (unfold chs, getChunkedSubspaces; apply chunked_ext; intros s Hs; now apply AG). now rewrite X. }
  { rewrite CC. exact AG. }
  { rewrite CC. apply sorted_NoDup. apply GI. }
  { split; auto. intros i j []. }
  rewrite E1. rewrite (keep_groups _ _ _ _ _ _ _ _ E1) in EC. rewrite CC in F1, HE1.
  destruct (Forall2_nth_error _ _ _ _ _ F1 Ego) as (go1 & Ego1 & SGo & OGo). rewrite Ego1. unfold ingroupChunks.
  assert (II : forall i, In i (ingroupSubspaces (dSizes (gDsg go1)) (gComms go1)) <-> 0 <= i < n /\ 0 < dataSize (gDsg go1) i /\ ~ In i is).
  { intros i. apply (ingroup_In dim rest); [apply OGo|]. destruct SGo as (_ & _ & ->). now apply CO. }
  set (ing := ingroupSubspaces (dSizes (gDsg go1)) (gComms go1)) in *.
  assert (GI1 : goodSet n ing) by (split; [apply sorted_filter, zrange_sorted|intros i Hi; now apply II in Hi]).
  destruct (chunks_good dim rest cnt Hcnt go1 mc ing OGo HMC GI1) as [C2 GC2].
  assert (EF1 : extraFits go1) by (apply (extraFits_sizes go); [apply SGo|exact EF]).
  destruct (inRoundsKeep_spec esz S (getChunkedSubspaces (dataSize (gDsg go1)) mc ing) go1 (fun i => In i is \/ False) e1 OGo GC2) as (g2 & e2 & E2 & HE2); auto.
  { rewrite C2. apply sorted_NoDup. apply GI1. }
  { rewrite C2. intros i j Hi Hn Hj. apply II in Hi. destruct Hi as (Hi & _ & NI). destruct SGo as (U1 & _).
    etransitivity; [apply (weightedSum_updated dim rest HL HP cnt _ _ _ _ i j U1); auto; [apply (G' go Hgo)|intros [_ X]; fold levels in X; rewrite (posLvl dim rest HL) in X by auto; contradiction]|].
    change (nth (Z.to_nat i) (repeat 1 dim :: rest) []) with (lvl i). unfold S, weightedSum. apply (sum_single _ gs out); auto. intros r' c1 Hr' Hc1. unfold contribution.
    destruct (vleb (lvl i) (gLevel (cGrid c1))) eqn:VE; auto. exfalso. apply (AL i r' c1); auto.
    apply (lvl_contains dim rest HL HP c1 i); auto. unfold tasksAt in Hc1. destruct (nth_error gs r') as [g'|] eqn:Eg'; [|destruct Hc1].
    destruct (G' g' (nth_error_In _ _ Eg')) as ((GG & _) & _). rewrite Forall_forall in GG. auto. }
  rewrite E2, EC. eexists. split; [reflexivity|]. cbn [pGroups pExtra]. split.
  - apply nth_error_Forall2; [clear - FC; induction FC; cbn; auto|]. intros k g g' Eg Eg'. destruct (Forall2_nth_error _ _ _ _ _ FC Eg) as (gx & Egx & H). rewrite Eg' in Egx. injection Egx as <-. split; auto.
    clear - EC Eg'. revert gs2 EC k Eg'. induction gs1 as [|x gs1 IH]; intros gs2 EC k Eg'; cbn [mapO] in EC; [injection EC as <-; destruct k; discriminate|].
    destruct (ingroupPart esz mc levels x) as [y|] eqn:Ey; [|discriminate]. destruct (mapO (ingroupPart esz mc levels) gs1) as [ys|]; [|discriminate]. injection EC as <-.
    destruct k as [|k]; cbn [nth_error] in Eg'; [|now apply (IH ys eq_refl k)]. injection Eg' as <-. unfold ingroupPart in Ey. cbv zeta in Ey. destruct (ingroupRounds _ _ _ _); [|discriminate]. injection Ey as <-. reflexivity.
  - apply (holdsE_ext (fun i => In i (concat (getChunkedSubspaces (dataSize (gDsg go1)) mc ing)) \/ In i is \/ False)); [|exact HE2]. intros i Hi Hn _. rewrite C2.
    destruct (in_dec Z.eq_dec i is) as [Y|Y]; [tauto|]. left. apply II. split; auto. split; auto. destruct (EF1 i Hi) as [Z0|[Z1 _]]; lia.
Qed.

(** *** Distribution *)
Lemma allocated : forall esz ch g, chunkGroupOk dim rest cnt g -> goodChunk dim rest g ch -> let d := gDsg (allocateChunk esz ch g) in
  ready levels d /\ dSizes d = dSizes (gDsg g) /\ dWith d = ch /\ dLen d < 2 ^ 31.
Proof.
  intros esz ch g (T & I & K & S & B) (G & N & A).
  assert (AE : accumulatedSize (dSizes (gDsg g)) ch = sizeSum (dataSize (gDsg g)) ch) by apply accumulated_zsum.
  destruct (allocate_ready dim rest esz ch (gDsg g) I K G N ltac:(lia)) as (R & ES & EW & ED & EL). cbn [allocateChunk gDsg]. cbv zeta. split; auto. split; auto. split; auto. rewrite EL. lia.
Qed.

Definition bcastChunk (g : Group) (ch : list Z) : Prop :=
  goodChunk dim rest g ch /\ (sizeSum (dataSize (gDsg g)) ch < 2 ^ 31 - 1 \/ length ch = 1%nat) /\ forall i, In i ch -> 0 < dataSize (gDsg g) i.

Lemma bcastAddresses_spec : forall g d ch, bcastChunk g ch -> ready levels d -> dSizes d = dSizes (gDsg g) -> dWith d = ch -> dLen d < 2 ^ 31 -> bcastAddresses d = flat_map (segment d) ch.
Proof.
  intros g d ch ((GS & N & _) & S & P) R ES EW L. unfold bcastAddresses. rewrite EW. rewrite chunked_one; auto.
  - apply (chunkAddresses_spec levels); auto; [apply GS|]. intros s Hs. split; [now rewrite EW|]. now apply GS.
  - intros i Hi. unfold dataSize. rewrite ES. now apply P.
  - unfold dataSize. rewrite ES. exact S.
  - reflexivity.
Qed.

Lemma restore_spec : forall T e d ch go, holdsE (fun _ => True) T e -> ready levels d -> dSizes d = dSizes (gDsg go) -> dWith d = ch -> extraFits go -> goodSet n ch -> (forall i, In i ch -> 0 < En i) ->
  let d0 := restoreChunk e d in sameShape d d0 /\ dKahan d0 = dKahan d /\ forall i j, In i ch -> 0 <= j < dataSize d i -> dData d0 (off d i + j) = T (lvl i) j.
Proof.
  intros T e d ch go [FE VE] R ES EW EF [_ GR] HP'. cbv zeta. unfold restoreChunk. set (l := filter _ _). pose proof FE as (RE & WE & SE).
  destruct (copySome_spec e d l RE R) as (Sh & EK & V).
  { intros x Hx. apply filter_In in Hx. tauto. }
  split; auto. split; auto. intros i j Hi Hj. rewrite V by (auto; now rewrite EW).
  assert (Hl : memZ i l = true).
  { apply memZ_In. apply filter_In. rewrite EW. split; auto. apply negb_true_iff, Z.eqb_neq. unfold dataSize. rewrite SE. specialize (HP' i Hi). unfold En in HP'. lia. }
  rewrite Hl. pose proof (EF i (GR i Hi)) as X. unfold dataSize in *. rewrite SE, ES in *. specialize (HP' i Hi). unfold En in *. destruct (Z.ltb_spec j (nth (Z.to_nat i) E 0)); [|lia]. cbn [andb].
  rewrite (full_off dim rest E e i FE). apply VE; auto. unfold En. lia.
Qed.

Lemma bcastRound_spec : forall esz out T ch gs e go, Forall (chunkGroupOk dim rest cnt) gs -> Forall (fun g => bcastChunk g ch) gs -> agree gs ch -> (forall g, In g gs -> gComms g <> []) ->
  nth_error gs out = Some go -> extraFits go -> (forall i, In i ch -> 0 < En i) -> holdsE (fun _ => True) T e ->
  exists gs', bcastRound esz out levels (repeat ch (length gs)) e gs = Some gs' /\
    Forall2 (fun g g' => stepped T (inChunk dim rest ch) g g' /\ chunkGroupOk dim rest cnt g') gs gs'.
Proof.
  intros esz out T ch gs e go G BC AG NC Ego EF PE HE. unfold bcastRound. cbv zeta. rewrite combine_repeat, map_map. cbn [fst snd].
  set (gs1 := map (fun g => allocateChunk esz ch g) gs). rewrite Forall_forall in G, BC.
  assert (Hgo : In go gs) by now apply nth_error_In in Ego.
  assert (Ego1 : nth_error gs1 out = Some (allocateChunk esz ch go)) by (unfold gs1; rewrite nth_error_map'; now rewrite Ego).
  rewrite (groupDsg_nth gs1 out _ Ego1). set (d := gDsg (allocateChunk esz ch go)). set (d0 := restoreChunk e d).
  destruct (BC go Hgo) as (GCo & SZo & POSo). destruct (allocated esz ch go (G go Hgo) GCo) as (Rd & Sd & Wd & Ld). fold d in Rd, Sd, Wd, Ld.
  destruct (restore_spec T e d ch go HE Rd Sd Wd EF) as (Sh0 & K0 & V0); [apply GCo|exact PE|]. fold d0 in Sh0, K0, V0.
  pose proof Sh0 as (H1 & H2 & _ & H4 & _).
  assert (R0 : ready levels d0) by (apply (ready_same levels d); auto; intros x Hx; rewrite K0; now apply Rd).
  assert (A0 : bcastAddresses d0 = flat_map (segment d0) ch) by (apply (bcastAddresses_spec go); auto).
  assert (SAME : forall g, In g gs -> let dg := gDsg (allocateChunk esz ch g) in (forall i, In i ch -> off dg i = off d0 i /\ dataSize dg i = dataSize d0 i) /\ bcastAddresses dg = bcastAddresses d0).
  { intros g Hg. cbv zeta. set (dg := gDsg (allocateChunk esz ch g)). destruct (BC g Hg) as (GCg & SZg & POSg). destruct (allocated esz ch g (G g Hg) GCg) as (Rg & Sg & Wg & Lg). fold dg in Rg, Sg, Wg, Lg.
    assert (DS : forall i, In i ch -> dataSize dg i = dataSize d0 i) by (intros i Hi; unfold dataSize; rewrite Sg, H1, Sd; now apply (AG g go)).
    assert (OF : forall i, off dg i = off d0 i). { intros i. unfold off. rewrite Wg, H2, Wd. apply before_ext. intros x Hx. apply (DS x Hx). }
    split; [auto|]. rewrite A0, (bcastAddresses_spec g dg ch) by auto. rewrite !flat_map_concat_map. f_equal. apply map_ext_in. intros i Hi. unfold segment. now rewrite OF, DS. }
  assert (C1 : forallb (fun g => match gComms g with [] => false | _ => true end) gs1 = true).
  { apply forallb_forall. intros g1 Hg1. unfold gs1 in Hg1. apply in_map_iff in Hg1. destruct Hg1 as (g & <- & Hg). cbn [allocateChunk gComms]. specialize (NC g Hg). destruct (gComms g); [contradiction|reflexivity]. }
  assert (C2 : forallb (fun g => Nat.eqb (length (bcastAddresses (gDsg g))) (length (bcastAddresses d0))) gs1 = true).
  { apply forallb_forall. intros g1 Hg1. unfold gs1 in Hg1. apply in_map_iff in Hg1. destruct Hg1 as (g & <- & Hg). destruct (SAME g Hg) as [_ ->]. apply Nat.eqb_refl. }
  rewrite C1, C2. cbn [andb].
  destruct (mapO_nth (fun r (rg : nat * Group) g' => forall g, nth_error gs r = Some g -> stepped T (inChunk dim rest ch) g g' /\ chunkGroupOk dim rest cnt g')
    (fun rg : nat * Group => distribute false levels (if Nat.eqb (fst rg) out then d0 else bcastInto d0 (gDsg (snd rg))) (snd rg)) (indexed gs1)) as (gs' & E' & L' & F').
  { intros r [r' g1] Er. rewrite indexed_nth in Er. unfold gs1 in Er. rewrite nth_error_map' in Er. destruct (nth_error gs r) as [g|] eqn:Eg; [|discriminate]. injection Er as <- <-. cbn [fst snd].
    assert (Hg : In g gs) by now apply nth_error_In in Eg. destruct (BC g Hg) as (GCg & SZg & POSg). destruct (allocated esz ch g (G g Hg) GCg) as (Rg & Sg & Wg & Lg).
    destruct (SAME g Hg) as [SO SA]. set (dg := gDsg (allocateChunk esz ch g)) in *.
    replace (distribute false levels (if Nat.eqb r out then d0 else bcastInto d0 dg) (allocateChunk esz ch g)) with (distribute false levels (if Nat.eqb r out then d0 else bcastInto d0 dg) g) by reflexivity.
    destruct (chunk_distribute dim rest HL cnt Hcnt dg (if Nat.eqb r out then d0 else bcastInto d0 dg) g ch T (G g Hg) Rg Sg Wg) as (g' & Eg' & Sg' & Og' & _).
    - apply GCg.
    - destruct (Nat.eqb_spec r out) as [->|N]; [|repeat split]. assert (g = go) by congruence. subst g. exact Sh0.
    - destruct (Nat.eqb_spec r out) as [->|N]; [|reflexivity]. assert (g = go) by congruence. subst g. exact K0.
    - intros i j Hi Hj. destruct (SO i Hi) as [O1 O2]. destruct (Nat.eqb_spec r out) as [->|N].
      + assert (g = go) by congruence. subst g. now apply V0.
      + unfold bcastInto. cbn [withData dData]. rewrite SA, scatter_same. 
        assert (IN : memZ (off dg i + j) (bcastAddresses d0) = true).
        { apply memZ_In. rewrite A0. apply in_flat_map. exists i. split; auto. unfold segment. apply zrange_In. rewrite <- O1, <- O2. lia. }
        rewrite IN, O1. unfold off in *. rewrite H1, H2 in *. apply V0; auto. unfold dataSize in *. rewrite H1 in *. lia.
    - exists g'. split; [exact Eg'|]. intros gx Egx. injection Egx as <-. auto. }
  rewrite E'. exists gs'. split; auto. rewrite indexed_length in L'. unfold gs1 in L'. rewrite map_length in L'. apply nth_error_Forall2; auto. intros k g g' Eg Eg'.
  destruct (F' k (k, allocateChunk esz ch g)) as (b & Eb & _ & Q); [rewrite indexed_nth; unfold gs1; rewrite nth_error_map'; now rewrite Eg|]. rewrite Eg' in Eb. injection Eb as <-. now apply Q.
Qed.

Lemma bcastChunk_sizes : forall g g' ch, dSizes (gDsg g') = dSizes (gDsg g) -> bcastChunk g ch -> bcastChunk g' ch.
Proof. intros g g' ch S (A & B & C). split; [now apply (goodChunk_sizes dim rest g)|]. unfold dataSize in *. rewrite S. auto. Qed.

Lemma bcastRounds_spec : forall esz out T chs gs e go, Forall (chunkGroupOk dim rest cnt) gs -> (forall g ch, In g gs -> In ch chs -> bcastChunk g ch) -> agree gs (concat chs) ->
  (forall g, In g gs -> chs <> [] -> gComms g <> []) ->
  nth_error gs out = Some go -> extraFits go -> (forall i, In i (concat chs) -> 0 < En i) -> holdsE (fun _ => True) T e ->
  exists gs', bcastRounds esz out levels (map (fun ch => repeat ch (length gs)) chs) e gs = Some gs' /\
    Forall2 (fun g g' => stepped T (inChunk dim rest (concat chs)) g g' /\ chunkGroupOk dim rest cnt g') gs gs'.
Proof.
  intros esz out T. induction chs as [|ch chs IH]; intros gs e go G BC AG NC Ego EF PE HE.
  - exists gs. split; [reflexivity|]. clear - G. induction gs as [|g gs IHg]; constructor.
    + split; [|now apply Forall_inv in G]. apply (stepped_ext T (fun _ => False)); [intros c l _ _ _; unfold inChunk; cbn [concat In]; tauto|]. apply stepped_refl.
    + apply IHg. now apply Forall_inv_tail in G.
  - cbn [concat] in *. destruct (bcastRound_spec esz out T ch gs e go G) as (gs1 & E1 & F1); auto.
    { apply Forall_forall. intros g Hg. apply BC; auto. now left. }
    { intros g g' i Hg Hg' Hi. apply AG; auto. apply in_or_app. now left. }
    { intros g Hg. apply NC; auto. discriminate. }
    { intros i Hi. apply PE. apply in_or_app. now left. }
    assert (L1 : length gs1 = length gs) by (clear - F1; induction F1; cbn; auto).
    destruct (Forall2_nth_error _ _ _ _ _ F1 Ego) as (go1 & Ego1 & SGo & OGo).
    destruct (IH gs1 e go1) as (gs2 & E2 & F2); auto.
    { apply Forall_forall. intros g' Hg'. destruct (Forall2_In_r _ _ _ _ F1 Hg') as (g & _ & _ & H). exact H. }
    { intros g' c Hg' Hc. destruct (Forall2_In_r _ _ _ _ F1 Hg') as (g & Hg & (_ & S & _) & _). apply (bcastChunk_sizes g); auto. apply BC; auto. now right. }
    { intros g g' i Hg Hg' Hi. destruct (Forall2_In_r _ _ _ _ F1 Hg) as (g0 & Hg0 & (_ & S & _) & _). destruct (Forall2_In_r _ _ _ _ F1 Hg') as (g0' & Hg0' & (_ & S' & _) & _).
      unfold dataSize. rewrite S, S'. apply AG; auto. apply in_or_app. now right. }
    { intros g' Hg' _. destruct (Forall2_In_r _ _ _ _ F1 Hg') as (g & Hg & (_ & _ & ->) & _). apply NC; auto. discriminate. }
    { apply (extraFits_sizes go); [apply SGo|exact EF]. }
    { intros i Hi. apply PE. apply in_or_app. now right. }
    exists gs2. split; [cbn [map bcastRounds]; rewrite E1; rewrite L1 in E2; exact E2|].
    clear - F1 F2. revert gs2 F2. induction F1 as [|g g1 gs gs1 [S1 O1] F1 IH]; intros gs2 F2; inversion F2 as [|? g2 ? gs2' [S2 O2] F2']; subst; constructor; auto.
    split; auto. apply (stepped_ext T (fun l => inChunk dim rest ch l \/ inChunk dim rest (concat chs) l)).
    + intros c l _ _ _. unfold inChunk. rewrite in_app_iff. tauto.
    + apply (stepped_trans T _ _ g g1 g2); auto. apply inChunk_dec.
Qed.

Lemma restoreRounds_spec : forall esz T chs g e, chunkGroupOk dim rest cnt g -> (forall ch, In ch chs -> goodChunk dim rest g ch) -> extraFits g -> (forall i, In i (concat chs) -> 0 < En i) ->
  holdsE (fun _ => True) T e ->
  exists g', restoreRounds esz levels chs e g = Some g' /\ stepped T (inChunk dim rest (concat chs)) g g' /\ chunkGroupOk dim rest cnt g'.
Proof.
  intros esz T. induction chs as [|ch chs IH]; intros g e G GC EF PE HE.
  - exists g. split; [reflexivity|]. split; auto. apply (stepped_ext T (fun _ => False)); [intros c l _ _ _; unfold inChunk; cbn [concat In]; tauto|]. apply stepped_refl.
  - cbn [concat] in *. pose proof (GC ch (or_introl eq_refl)) as Gch. destruct (allocated esz ch g G Gch) as (Rd & Sd & Wd & Ld). set (d := gDsg (allocateChunk esz ch g)) in *.
    destruct (restore_spec T e d ch g HE Rd Sd Wd EF) as (Sh0 & K0 & V0); [apply Gch|intros i Hi; apply PE; apply in_or_app; now left|].
    destruct (chunk_distribute dim rest HL cnt Hcnt d (restoreChunk e d) g ch T G Rd Sd Wd) as (g1 & E1 & S1 & O1 & _); auto; [apply Gch|].
    destruct (IH g1 e O1) as (g2 & E2 & S2 & O2); auto.
    { intros c Hc. apply (goodChunk_sizes dim rest g); [apply S1|]. apply GC. now right. }
    { apply (extraFits_sizes g); [apply S1|exact EF]. }
    { intros i Hi. apply PE. apply in_or_app. now right. }
    exists g2. split; [|split; auto].
    + cbn [restoreRounds]. cbv zeta. fold d. replace (distribute false levels (restoreChunk e d) (allocateChunk esz ch g)) with (distribute false levels (restoreChunk e d) g) by reflexivity. fold levels in E1. rewrite E1. exact E2.
    + apply (stepped_ext T (fun l => inChunk dim rest ch l \/ inChunk dim rest (concat chs) l)).
      * intros c l _ _ _. unfold inChunk. rewrite in_app_iff. tauto.
      * apply (stepped_trans T _ _ g g1 g2); auto. apply inChunk_dec.
Qed.

Lemma chunks_bcast : forall g mc l, chunkGroupOk dim rest cnt g -> 0 < mc < 2 ^ 31 -> goodSet n l -> (forall i, In i l -> 0 < dataSize (gDsg g) i) ->
  forall ch, In ch (getChunkedSubspaces (dataSize (gDsg g)) mc l) -> bcastChunk g ch.
Proof.
  intros g mc l G HMC GS PS ch Hch. destruct (chunks_good dim rest cnt Hcnt g mc l G HMC GS) as [C GC]. pose proof G as (_ & I & _ & _ & B).
  destruct (chunked_spec (dataSize (gDsg g)) mc (length l) l) as [_ F]; auto.
  { intros s _. pose proof (dataSize_range _ _ s I). split; [lia|]. unfold dataSize. destruct (nth_in_or_default (Z.to_nat s) (dSizes (gDsg g)) 0) as [Y| ->]; [|lia]. rewrite Forall_forall in B. now apply B. }
  rewrite Forall_forall in F. destruct (F ch Hch) as [_ A]. split; [now apply GC|]. split; [lia|]. intros i Hi. apply PS. rewrite <- C. apply in_concat. eauto.
Qed.

Lemma distributeChunked_spec : forall esz mc out is T pr, 0 < mc < 2 ^ 31 ->
  Forall (chunkGroupOk dim rest cnt) (pGroups pr) -> chunkedOk dim rest cnt (pGroups pr) is -> (exists go, nth_error (pGroups pr) out = Some go /\ extraFits go) -> holdsE (fun _ => True) T (pExtra pr) ->
  exists pr', distributeChunked esz mc out levels pr = Some pr' /\ pExtra pr' = pExtra pr /\ length (pGroups pr') = length (pGroups pr) /\
    forall r g g', nth_error (pGroups pr) r = Some g -> nth_error (pGroups pr') r = Some g' -> chunkGroupOk dim rest cnt g' /\
      stepped T (fun l => In l levels /\ 0 < En (position levels l) /\ (In (position levels l) is \/ r = out)) g g'.
Proof.
  intros esz mc out is T pr HMC G (GI & CO & AG & _) (go & Ego & EF) HE. pose proof HE as [FE _]. unfold distributeChunked. rewrite Ego. cbv zeta. set (gs := pGroups pr) in *. set (e := pExtra pr) in *.
  assert (Hgo : In go gs) by now apply nth_error_In in Ego. pose proof G as G'. rewrite Forall_forall in G'.
  assert (NE : numSubspaces e = n) by (unfold numSubspaces; destruct FE as (((-> & _) & _) & _); reflexivity).
  assert (DE : forall i, dataSize e i = En i) by (intros i; apply (full_size dim rest E e i FE)).
  set (sub := filter _ (zrange 0 (numSubspaces e))).
  assert (SI : forall i, In i sub <-> 0 <= i < n /\ 0 < En i /\ In i is).
  { intros i. unfold sub. rewrite filter_In, NE, zrange_In, andb_true_iff, Z.ltb_lt, memZ_In, DE. unfold candidates. destruct (CO go Hgo) as [[-> ->]|(M & ->)]; cbn [snd]; tauto. }
  assert (GS : goodSet n sub) by (split; [apply sorted_filter, zrange_sorted|intros i Hi; now apply SI in Hi]).
  assert (SZ : forall g i, In g gs -> In i sub -> dataSize (gDsg g) i = En i).
  { intros g i Hg Hi. apply SI in Hi. destruct Hi as (Hi & P & Hs). rewrite (AG g go i Hg Hgo Hs). destruct (EF i Hi) as [X|[X _]]; lia. }
  set (chs := getChunkedSubspaces (dataSize (gDsg go)) mc sub).
  assert (CE : forall g, In g gs -> getChunkedSubspaces (dataSize (gDsg g)) mc sub = chs).
  { intros g Hg. unfold chs, getChunkedSubspaces. apply chunked_ext. intros s Hs. now rewrite !SZ. }
  assert (MC : map (fun g => getChunkedSubspaces (dataSize (gDsg g)) mc sub) gs = repeat chs (length gs)).
  { clear - CE. induction gs as [|g gs IH]; auto. cbn [map length repeat]. rewrite CE by now left. f_equal. apply IH. intros x Hx. apply CE. now right. }
  rewrite MC. assert (M0 : match repeat chs (length gs) with [] => O | c :: _ => length c end = length chs) by (destruct gs; [destruct Hgo|reflexivity]).
  rewrite M0. assert (FB : forallb (fun c => Nat.eqb (length c) (length chs)) (repeat chs (length gs)) = true).
  { apply forallb_forall. intros c Hc. apply repeat_spec in Hc. subst. apply Nat.eqb_refl. }
  rewrite FB. assert (RE : map (fun k => map (fun c => nth k c []) (repeat chs (length gs))) (seq 0 (length chs)) = map (fun ch => repeat ch (length gs)) chs).
  { transitivity (map (fun k => repeat (nth k chs []) (length gs)) (seq 0 (length chs))); [|rewrite <- (map_map (fun k => nth k chs []) (fun ch => repeat ch (length gs))), nth_seq_map; reflexivity].
    apply map_ext. intros k. generalize (length gs). intros m. induction m as [|m IH]; auto. cbn [repeat map]. now rewrite IH. }
  rewrite RE. destruct (chunks_good dim rest cnt Hcnt go mc sub (G' go Hgo) HMC GS) as [CC _]. fold chs in CC.
  destruct (bcastRounds_spec esz out T chs gs e go G) as (gs1 & E1 & F1); auto.
  { intros g ch Hg Hch. apply (chunks_bcast g mc sub (G' g Hg) HMC GS); [|now rewrite CE]. intros i Hi. rewrite SZ by auto. now apply SI. }
  { rewrite CC. intros g g' i Hg Hg' Hi. now rewrite !SZ. }
  { intros g Hg Nc X. apply Nc. destruct (CO g Hg) as [[_ Y]|(M & Y)]; [|congruence]. unfold chs. assert (sub = []) as ->; [|reflexivity]. destruct sub as [|i sub']; auto. exfalso.
    destruct (proj1 (SI i) (or_introl eq_refl)) as (_ & _ & Z0). rewrite Y in Z0. destruct Z0. }
  { rewrite CC. intros i Hi. now apply SI. }
  rewrite E1. rewrite CC in F1. destruct (Forall2_nth_error _ _ _ _ _ F1 Ego) as (go1 & Ego1 & SGo & OGo). rewrite Ego1.
  assert (EF1 : extraFits go1) by (apply (extraFits_sizes go); [apply SGo|exact EF]).
  assert (N1 : numSubspaces (gDsg go1) = n) by (unfold numSubspaces; destruct OGo as (_ & (-> & _) & _); reflexivity).
  set (alone := filter _ (zrange 0 (numSubspaces (gDsg go1)))).
  assert (AI : forall i, In i alone <-> 0 <= i < n /\ 0 < En i /\ ~ In i is).
  { intros i. unfold alone. rewrite filter_In, N1, zrange_In, andb_true_iff, Z.ltb_lt, memZ_In, DE. rewrite (ingroup_In dim rest go1 is); [|apply OGo|destruct SGo as (_ & _ & ->); now apply CO].
    fold levels n. split; [tauto|]. intros (A & B & C). repeat (split; auto); try apply A. destruct (EF1 i A) as [X|[X _]]; lia. }
  assert (GA : goodSet n alone) by (split; [apply sorted_filter, zrange_sorted|intros i Hi; now apply AI in Hi]).
  destruct (chunks_good dim rest cnt Hcnt go1 mc alone OGo HMC GA) as [C2 GC2].
  destruct (restoreRounds_spec esz T (getChunkedSubspaces (dataSize (gDsg go1)) mc alone) go1 e OGo GC2 EF1) as (go2 & E2 & S2 & O2); auto.
  { rewrite C2. intros i Hi. now apply AI. }
  rewrite E2. rewrite C2 in S2. eexists. split; [reflexivity|]. cbn [pGroups pExtra]. split; auto. assert (L1 : length gs1 = length gs) by (clear - F1; induction F1; cbn; auto).
  split; [rewrite map_length, indexed_length; exact L1|]. intros r g g' Eg Eg'. rewrite nth_error_map', indexed_nth in Eg'. destruct (Forall2_nth_error _ _ _ _ _ F1 Eg) as (g1 & Eg1 & S1 & O1). rewrite Eg1 in Eg'.
  cbn [fst snd] in Eg'. injection Eg' as <-. destruct (Nat.eqb_spec r out) as [->|N].
  - assert (g = go) by congruence. subst g. assert (g1 = go1) by congruence. subst g1. split; auto.
    apply (stepped_ext T (fun l => inChunk dim rest sub l \/ inChunk dim rest alone l)); [|apply (stepped_trans T _ _ go go1 go2); auto; apply inChunk_dec].
    intros c l _ _ _. unfold inChunk. fold levels. split.
    + intros [[A B]|[A B]]; [apply SI in B|apply AI in B]; tauto.
    + intros (A & B & _). destruct (position_In levels l A) as [P1 _]. destruct (in_dec Z.eq_dec (position levels l) is) as [Y|Y]; [left|right]; split; auto; [apply SI|apply AI]; auto.
  - split; auto. apply (stepped_ext T (inChunk dim rest sub)); [|exact S1]. intros c l _ _ _. unfold inChunk. fold levels. split.
    + intros [A B]. apply SI in B. tauto.
    + intros (A & B & [C|C]); [|contradiction]. split; auto. apply SI. destruct (position_In levels l A) as [P1 _]. auto.
Qed.

(** The invariant survives a change of values of the tasks. *)
Lemma tasksAt_stepped : forall gs gs' W P r c', Forall2 (fun g g' => stepped W P g g') gs gs' -> In c' (tasksAt gs' r) -> exists c, In c (tasksAt gs r) /\ cGrid c' = cGrid c.
Proof.
  intros gs gs' W P r c' F Hc. unfold tasksAt in *. destruct (nth_error gs' r) as [g'|] eqn:E'; [|destruct Hc]. destruct (Forall2_nth_error_r _ _ _ _ _ F E') as (g & Eg & (U & _)). rewrite Eg.
  destruct (Forall2_In_r _ _ _ _ U Hc) as (c & Hc0 & X). exists c. split; auto. now apply updated_shape in X.
Qed.
Lemma chunkedOk_stepped : forall gs gs' W P is, Forall2 (fun g g' => stepped W P g g') gs gs' -> chunkedOk dim rest cnt gs is -> chunkedOk dim rest cnt gs' is.
Proof.
  intros gs gs' W P is F (A & B & C & D). split; auto. split; [|split].
  - intros g' Hg'. destruct (Forall2_In_r _ _ _ _ F Hg') as (g & Hg & (_ & _ & ->)). auto.
  - intros g g' i Hg Hg' Hi. destruct (Forall2_In_r _ _ _ _ F Hg) as (g0 & Hg0 & (_ & S0 & _)). destruct (Forall2_In_r _ _ _ _ F Hg') as (g1 & Hg1 & (_ & S1 & _)).
    unfold dataSize. rewrite S0, S1. now apply C.
  - intros r r' c' c0' i Hi H N Hc0' Hl0 Q Hc' Hl. destruct (tasksAt_stepped _ _ _ _ r' c' F Hc') as (c & Hc & Gc). destruct (tasksAt_stepped _ _ _ _ r c0' F Hc0') as (c0 & Hc0 & G0).
    apply (D r r' c c0 i); auto; unfold containsL in *; congruence.
Qed.
Lemma chunkInv_stepped : forall out is pr pr' W P, chunkInv out is pr -> Forall2 (fun g g' => stepped W P g g' /\ chunkGroupOk dim rest cnt g') (pGroups pr) (pGroups pr') -> full dim rest E (pExtra pr') -> chunkInv out is pr'.
Proof.
  intros out is pr pr' W P (G & CK & (go & Ego & EF) & AL & FE & PE) F FE'.
  assert (F1 : Forall2 (fun g g' => stepped W P g g') (pGroups pr) (pGroups pr')) by (eapply Forall2_imp2; [|exact F]; cbv beta; tauto).
  split; [apply Forall_forall; intros g' Hg'; destruct (Forall2_In_r _ _ _ _ F Hg') as (g & _ & _ & H); exact H|]. split; [now apply (chunkedOk_stepped _ _ _ _ _ F1)|]. split; [|split; [|split; auto]].
  - destruct (Forall2_nth_error _ _ _ _ _ F Ego) as (go' & Ego' & S & _). exists go'. split; auto. apply (extraFits_sizes go); [apply S|exact EF].
  - intros i r c' Hi Ni Pi Nr Hc' Hl. destruct (tasksAt_stepped _ _ _ _ r c' F1 Hc') as (c & Hc & Gc). apply (AL i r c); auto. unfold containsL in *. congruence.
Qed.

(** The whole combination on one process: [pr1] after summing up in the system, [pr2] after reading the files. *)
Lemma finishChunked_spec : forall esz mc out is T pr pr1 pr2, 0 < mc < 2 ^ 31 -> chunkInv out is pr ->
  Forall2 (fun g g' => (stepped (weightedSum (allTasks (pGroups pr))) (fun l => In l levels) g g' /\ chunkGroupOk dim rest cnt g') /\ dLen (gDsg g') = 0) (pGroups pr) (pGroups pr1) ->
  pGroups pr2 = pGroups pr1 -> holdsE (fun _ => True) T (pExtra pr2) ->
  (forall c i j, In c (allTasks (pGroups pr)) -> 0 <= i < n -> containsL c (lvl i) -> 0 <= j < cnt (lvl i) -> En i = 0 -> weightedSum (allTasks (pGroups pr)) (lvl i) j = T (lvl i) j) ->
  exists pr', distributeChunked esz mc out levels pr2 = Some pr' /\ chunkInv out is pr' /\ Forall2 (fun g g' => stepped T (fun l => In l levels) g g') (pGroups pr) (pGroups pr').
Proof.
  intros esz mc out is T pr pr1 pr2 HMC I F E2 HE HT. set (S := weightedSum (allTasks (pGroups pr))) in *.
  assert (F1 : Forall2 (fun g g' => stepped S (fun l => In l levels) g g' /\ chunkGroupOk dim rest cnt g') (pGroups pr) (pGroups pr2)) by (rewrite E2; eapply Forall2_imp2; [|exact F]; cbv beta; tauto).
  assert (I2 : chunkInv out is pr2) by (apply (chunkInv_stepped out is pr pr2 _ _ I F1); apply HE). pose proof I2 as (G2 & CK2 & EX2 & _).
  destruct (distributeChunked_spec esz mc out is T pr2 HMC G2 CK2 EX2 HE) as (pr' & Ed & Ee & L & ST). exists pr'. split; auto.
  pose proof I as (G & CK & EX & AL & FE & PE). rewrite Forall_forall in G.
  assert (L2 : length (pGroups pr2) = length (pGroups pr)) by (clear - F1; induction F1; cbn; auto).
  assert (RES : Forall2 (fun g g' => stepped T (fun l => In l levels) g g' /\ chunkGroupOk dim rest cnt g') (pGroups pr) (pGroups pr')).
  { apply nth_error_Forall2; [lia|]. intros r g g' Eg Eg'. destruct (Forall2_nth_error _ _ _ _ _ F1 Eg) as (g2 & Eg2 & S2 & _). destruct (ST r g2 g' Eg2 Eg') as [O' S']. split; auto.
    apply (stepped_over S T (fun l => In l levels) (fun l => In l levels /\ 0 < En (position levels l) /\ (In (position levels l) is \/ r = out)) g g2 g'); auto.
    - intros l. destruct (in_dec (list_eq_dec Z.eq_dec) l levels), (in_dec Z.eq_dec (position levels l) is), (Z_lt_le_dec 0 (En (position levels l))), (Nat.eq_dec r out); try tauto; right; intros (A & B & C); try tauto; lia.
    - tauto.
    - intros c l j Hc Hl NQ Hcl Hj. assert (Hg : In g (pGroups pr)) by now apply nth_error_In in Eg. destruct (position_In levels l Hl) as [P1 P2]. change (0 <= position levels l < n) in P1. change (lvl (position levels l) = l) in P2. rewrite <- P2 at 1 2.
      destruct (G g Hg) as ((_ & CT) & _). assert (CN : Z.of_nat (length (pointsOf c l)) = cnt l) by now apply CT.
      apply (HT c); auto; [unfold allTasks; apply in_flat_map; eauto|now rewrite P2|rewrite P2; lia|].
      assert (EN : 0 <= En (position levels l)) by (apply (full_nonneg dim rest E _ _ FE)).
      destruct (Z_lt_le_dec 0 (En (position levels l))) as [X|X]; [|lia]. exfalso. destruct (in_dec Z.eq_dec (position levels l) is) as [Y|Y]; [tauto|]. destruct (Nat.eq_dec r out) as [Z0|Z0]; [tauto|].
      apply (AL (position levels l) r c); auto; [unfold tasksAt; now rewrite Eg|now rewrite P2]. }
  split; [|eapply Forall2_imp2; [|exact RES]; cbv beta; tauto]. apply (chunkInv_stepped out is pr pr' _ _ I RES). rewrite Ee. apply HE.
Qed.
End Proc.
