(** Proofs about SparseGridModel.v: registration, scatter and gather. *)
From Verif Require Import Base TensorModel TensorProofs PartitionProofs DofProofs Level1dModel Level1dProofs LevelSetsModel LevelSetsProofs SubspaceModel
  SubspaceProofs CombiSchemeModel CombiSchemeProofs Hier1dModel Hier1dProofs HierMassProofs KahanModel SparseGridModel SparseGridProofs CombineModel.
From Coq Require Import QArith Qcanon.
Open Scope Z_scope.
Ltac Zify.zify_post_hook ::= idtac.

(** ** The registered sizes are the numbers of points *)

Lemma numPoints_idx : forall levels bs lo up l, length bs = length levels -> length lo = length levels -> length up = length levels ->
  Forall2 (fun x y => 1 <= x <= y) l levels ->
  numPointsOfSubspace levels bs lo up l = zprod (map (fun i => Z.of_nat (length i)) (oneDIndices levels bs lo up l)).
Proof.
  induction levels as [|L levels IH]; intros bs lo up l H1 H2 H3 F; inv F;
    destruct bs as [|b bs], lo as [|lw lo], up as [|u up]; cbn [length] in *; try lia; [reflexivity|].
  cbn [numPointsOfSubspace oneDIndices map]. rewrite zprod_cons, IH by (auto; lia). f_equal.
  unfold indices1dLocal.
  destruct (Z.gtb_spec x L); [lia|]. rewrite zprog_length, Z2Nat.id; auto.
  unfold numPointsOnPartition. destruct (Z.ltb_spec (u - lw - 1) (localStartForLevel b L x lw (strideForLevel b L x))); [lia|].
  assert (0 < strideForLevel b L x) by (unfold strideForLevel; destruct (_ && _); apply Z.pow_pos_nonneg; lia).
  pose proof (Z.div_pos (u - lw - 1 - localStartForLevel b L x lw (strideForLevel b L x)) (strideForLevel b L x) ltac:(lia) ltac:(lia)). lia.
Qed.

Lemma Forall2_weak : forall l L, Forall2 (fun x y => 1 <= x <= y) l L -> Forall2 Z.le l L.
Proof. induction 1; constructor; auto; lia. Qed.

Lemma zprod_rev : forall l, zprod (rev l) = zprod l.
Proof. induction l as [|x l IH]; auto. cbn [rev]. rewrite zprod_app, !zprod_cons, IH. change (zprod []) with 1. ring. Qed.

Lemma numPoints_length : forall g l, wfGrid g -> Forall2 (fun x y => 1 <= x <= y) l (gLevel g) ->
  numPointsOfSubspace (gLevel g) (gBnd g) (gLower g) (gUpper g) l = Z.of_nat (length (fgPointsOfSubspace g l)).
Proof.
  intros g l W F. pose proof W as (H1 & H2 & H3 & _). rewrite numPoints_idx by auto.
  rewrite fgPoints_cart by (auto using Forall2_weak). rewrite map_length, cart_length, map_rev, zprod_rev. reflexivity.
Qed.

(** ** One subspace *)

Definition sameShape (d d' : DSG) : Prop :=
  dSizes d' = dSizes d /\ dWith d' = dWith d /\ dPtr d' = dPtr d /\ dLen d' = dLen d /\ dKPtr d' = dKPtr d /\ dKLen d' = dKLen d.

Lemma sameShape_refl : forall d, sameShape d d.
Proof. intros d. repeat split. Qed.
Lemma sameShape_trans : forall a b c, sameShape a b -> sameShape b c -> sameShape a c.
Proof. intros a b c (A1 & A2 & A3 & A4 & A5 & A6) (B1 & B2 & B3 & B4 & B5 & B6). repeat split; congruence. Qed.

Definition kzero (d : DSG) : Prop := forall k, 0 <= k -> dKahan d k = 0%Qc.

Lemma addPoints_spec : forall c v ps sp kp d, kzero d -> 0 <= kp ->
  let d' := addPoints c v ps sp kp d in
  sameShape d d' /\ kzero d' /\
  forall k, dData d' k = (dData d k + (if ((sp <=? k) && (k <? sp + Z.of_nat (length ps)))%Z
                                       then c * v (nth (Z.to_nat (k - sp)) ps 0%Z) else 0))%Qc.
Proof.
  intros c v. induction ps as [|p ps IH]; intros sp kp d HK Hkp; cbn [addPointsR].
  - split; [apply sameShape_refl|]. split; auto. intros k. cbn [length].
    destruct (Z.leb_spec sp k), (Z.ltb_spec k (sp + Z.of_nat 0)); cbn [andb]; try lia; ring.
  - assert (HK1 : kzero (kahanAdd d sp kp (c * v p)%Qc)).
    { intros k Hk. cbn. unfold setA. destruct (k =? kp); [ring|now apply HK]. }
    destruct (IH (sp + 1) (kp + 1) _ HK1 ltac:(lia)) as (Sh & K & D). split; [|split; [exact K|]].
    + eapply sameShape_trans; [|exact Sh]. repeat split.
    + intros k. rewrite D. cbn [kahanAddR kahanStep fst snd dData length]. unfold setA.
      destruct (Z.eqb_spec k sp) as [->|N].
      * rewrite HK by auto. destruct (Z.leb_spec (sp + 1) sp); [lia|]. cbn [andb].
        destruct (Z.leb_spec sp sp), (Z.ltb_spec sp (sp + Z.of_nat (S (length ps)))); try lia. cbn [andb].
        rewrite Z.sub_diag. cbn [Z.to_nat nth]. ring.
      * destruct (Z.leb_spec (sp + 1) k), (Z.ltb_spec k (sp + 1 + Z.of_nat (length ps))), (Z.leb_spec sp k),
          (Z.ltb_spec k (sp + Z.of_nat (S (length ps)))); cbn [andb]; try lia; try ring.
        replace (Z.to_nat (k - sp)) with (S (Z.to_nat (k - (sp + 1)))) by lia. reflexivity.
Qed.

Lemma copyPoints_spec : forall d ps sp v k,
  (~ In k ps -> copyPoints d ps sp v k = v k) /\
  (forall j, NoDup ps -> (j < length ps)%nat -> nth j ps 0 = k -> copyPoints d ps sp v k = dData d (sp + Z.of_nat j)).
Proof.
  intros d. induction ps as [|p ps IH]; intros sp v k; cbn [copyPoints].
  - split; auto. intros j _ Hj. cbn [length] in Hj. lia.
  - destruct (IH (sp + 1) (setA v p (dData d sp)) k) as [I1 I2]. split.
    + intros N. rewrite I1 by (intros H; apply N; now right). apply setA_other. intros ->. apply N. now left.
    + intros j ND Hj E. inv ND. destruct j as [|j]; cbn [nth length] in *.
      * rewrite I1 by auto. rewrite setA_same. f_equal. lia.
      * rewrite (I2 j) by (auto; lia). f_equal. lia.
Qed.

(** ** All subspaces *)

Section Transfer.
Variables (dim : nat) (levels : list (list Z)).
Hypothesis HL : sortedLevels dim levels.
Let n := Z.of_nat (length levels).
Let lvl (i : Z) := nth (Z.to_nat i) levels [].

Lemma position_lvl : forall i, 0 <= i < n -> position levels (lvl i) = i.
Proof.
  intros i Hi. eapply isPosition_unique; eauto using position_spec. left. split; auto.
Qed.

Lemma position_In : forall q, In q levels -> 0 <= position levels q < n /\ lvl (position levels q) = q.
Proof. intros q Hq. destruct (position_spec levels q) as [H|[_ H]]; [exact H|contradiction]. Qed.

Lemma position_notIn : forall q, ~ In q levels -> position levels q = -1.
Proof. intros q Hq. destruct (position_spec levels q) as [[H1 H2]|[H _]]; auto. exfalso. apply Hq. rewrite <- H2. apply nth_In. lia. Qed.

Lemma lvl_In : forall i, 0 <= i < n -> In (lvl i) levels.
Proof. intros i Hi. apply nth_In. unfold n in Hi. lia. Qed.

(** Registration. *)
Section Register.
Variable cnt : list Z -> Z.
Hypothesis Hcnt : forall q, 0 <= cnt q < 2 ^ 32.

Lemma dataSize_set : forall d i j s, 0 <= i < Z.of_nat (length (dSizes d)) -> 0 <= j ->
  dataSize (setDataSize i s d) j = if j =? i then s else dataSize d j.
Proof.
  intros d i j s Hi Hj. unfold setDataSize, dataSize, withSizes. cbn [dSizes]. destruct (Z.eqb_spec j i) as [->|N].
  - apply nth_upd_same. lia.
  - apply nth_upd_other. lia.
Qed.

Lemma setSize_with : forall d i s, dWith (setDataSize i s d) = dWith d.
Proof. intros. unfold setDataSize. destruct (_ =? _); reflexivity. Qed.

Lemma register_fold : forall g qs d, dsgInv (length levels) d ->
  (forall i, 0 <= i < n -> dataSize d i = 0 \/ dataSize d i = cnt (lvl i)) ->
  (forall q, In q qs -> numPointsOfSubspace (gLevel g) (gBnd g) (gLower g) (gUpper g) q = cnt q) ->
  let d' := fold_left (fun d q => registerBody g (position levels q) q d) qs d in
  dsgInv (length levels) d' /\ dWith d' = dWith d /\
  (forall i, 0 <= i < n -> dataSize d' i = 0 \/ dataSize d' i = cnt (lvl i)) /\
  (forall i, 0 <= i < n -> dataSize d i = cnt (lvl i) -> dataSize d' i = cnt (lvl i)) /\
  (forall i, 0 <= i < n -> In (lvl i) qs -> dataSize d' i = cnt (lvl i)) /\
  (forall i, 0 <= i < n -> ~ In (lvl i) qs -> dataSize d' i = dataSize d i).
Proof.
  intros g. induction qs as [|q qs IH]; intros d I HD HC.
  { cbn. split; auto. split; auto. split; auto. split; auto. split; auto. intros i _ []. }
  cbn [fold_left]. set (d1 := registerBody g (position levels q) q d).
  assert (HC0 : numPointsOfSubspace (gLevel g) (gBnd g) (gLower g) (gUpper g) q = cnt q) by (apply HC; now left).
  pose proof I as (LS & _).
  assert (S1 : dsgInv (length levels) d1 /\ dWith d1 = dWith d /\
    forall i, 0 <= i < n -> dataSize d1 i = if (i =? position levels q) && (dataSize d i =? 0) then cnt (lvl i) else dataSize d i).
  { unfold d1, registerBody. destruct (in_dec (list_eq_dec Z.eq_dec) q levels) as [Hin|Hin].
    - destruct (position_In q Hin) as [P1 P2]. rewrite Z.gtb_ltb, (proj2 (Z.ltb_lt (-1) _)) by lia.
      destruct (Z.eqb_spec (dataSize d (position levels q)) 0) as [E|E].
      + rewrite HC0. split; [apply setSize_inv; auto|]. split; [apply setSize_with|]. intros i Hi.
        rewrite dataSize_set by (rewrite ?LS; unfold n in *; lia). destruct (Z.eqb_spec i (position levels q)) as [->|N]; cbn [andb]; auto.
        rewrite E. cbn. now rewrite P2.
      + split; auto. split; auto. intros i Hi. destruct (Z.eqb_spec i (position levels q)) as [->|N]; cbn [andb]; auto.
        destruct (Z.eqb_spec (dataSize d (position levels q)) 0); [contradiction|auto].
    - rewrite (position_notIn q Hin). cbn. split; auto. split; auto. intros i Hi.
      destruct (Z.eqb_spec i (-1)); [lia|]. reflexivity. }
  destruct S1 as (I1 & W1 & D1). clearbody d1.
  assert (HD1 : forall i, 0 <= i < n -> dataSize d1 i = 0 \/ dataSize d1 i = cnt (lvl i)).
  { intros i Hi. rewrite D1 by auto. destruct (_ && _); auto. }
  destruct (IH d1 I1 HD1 (fun q' H => HC q' (or_intror H))) as (J1 & J2 & J3 & J4 & J5 & J6).
  split; auto. split; [congruence|]. split; auto. split; [|split].
  - intros i Hi E. apply J4; auto. rewrite D1 by auto. destruct (_ && _); auto.
  - intros i Hi [E|Hin]; [|now apply J5]. apply J4; auto. rewrite D1 by auto. subst q. rewrite position_lvl by auto.
    rewrite Z.eqb_refl. cbn [andb]. destruct (Z.eqb_spec (dataSize d i) 0) as [E|E]; auto. destruct (HD i Hi); [contradiction|auto].
  - intros i Hi N. rewrite J6 by (auto; intros X; apply N; now right). rewrite D1 by auto.
    destruct (Z.eqb_spec i (position levels q)) as [E|E]; auto. exfalso. apply N. left.
    destruct (in_dec (list_eq_dec Z.eq_dec) q levels) as [Hin|Hin].
    + subst i. symmetry. now apply position_In.
    + rewrite (position_notIn q Hin) in E. lia.
Qed.
End Register.

(** A sparse grid whose buffers are laid out. *)
Definition ready (d : DSG) : Prop :=
  dsgInv (length levels) d /\ laidOut (dSizes d) (dWith d) (dPtr d) (dLen d) /\ laidOut (dSizes d) (dWith d) (dKPtr d) (dKLen d) /\
  dLen d < 2 ^ 32 /\ kzero d.

Definition off (d : DSG) (i : Z) : Z := before (dSizes d) (dWith d) i.

Lemma ready_same : forall d d', ready d -> sameShape d d' -> kzero d' -> ready d'.
Proof.
  intros d d' (I & LD & LK & LL & K) (S1 & S2 & S3 & S4 & S5 & S6) K'. unfold ready, dsgInv. rewrite S1, S2, S3, S4, S5, S6.
  destruct I as (I1 & I2 & I3 & I4 & I5). repeat (split; auto).
Qed.

Lemma ready_ptr : forall d, ready d -> forall i, 0 <= i < n ->
  ptrOf (dPtr d) i = off d i /\ ptrOf (dKPtr d) i = off d i /\ 0 <= off d i.
Proof.
  intros d (I & LD & LK & LL & K) i Hi. destruct I as (I1 & I2 & I3 & _). rewrite <- I1 in I3.
  destruct (laidOut_spec _ _ _ _ I2 I3 LD LL) as (P & _).
  assert (LL' : dKLen d < 2 ^ 32) by (destruct LD as [_ LD]; destruct LK as [_ LK]; congruence).
  destruct (laidOut_spec _ _ _ _ I2 I3 LK LL') as (P' & _). unfold ptrOf, n in *.
  rewrite P, P' by lia. split; [reflexivity|]. split; [reflexivity|]. unfold off.
  rewrite <- (before_0 (dSizes d) (dWith d)). apply before_mono; [|lia]. eapply Forall_impl; [|exact I2]. cbn. intros; lia.
Qed.

Lemma off_disjoint : forall d, ready d -> forall i j, 0 <= i < j -> In i (dWith d) -> off d i + dataSize d i <= off d j.
Proof.
  intros d (I & LD & LK & LL & K) i j Hij Hi. destruct I as (I1 & I2 & I3 & _). rewrite <- I1 in I3.
  destruct (laidOut_spec _ _ _ _ I2 I3 LD LL) as (_ & P & _). unfold off, dataSize. rewrite <- P by auto.
  apply before_mono; [|lia]. eapply Forall_impl; [|exact I2]. cbn. intros; lia.
Qed.

Definition copied (fully : bool) (d : DSG) (i : Z) : Prop := 0 < dataSize d i /\ In i (dWith d).

Lemma copied_spec : forall fully d i, 0 <= i < n -> (fully = true -> forall i, 0 <= i < n -> In i (dWith d)) ->
  (shouldBeCopied fully d i = true <-> copied fully d i).
Proof.
  intros fully d i Hi HF. unfold shouldBeCopied, copied. rewrite !andb_true_iff, orb_true_iff, memZ_In, !Z.gtb_lt. split.
  - intros [[_ H] [E|E]]; auto.
  - intros [H1 H2]. repeat split; auto; lia.
Qed.

Lemma add_fold : forall fully g c v qs d, ready d -> NoDup qs ->
  (fully = true -> forall i, 0 <= i < n -> In i (dWith d)) ->
  (forall i, 0 <= i < n -> In (lvl i) qs -> copied fully d i -> Z.of_nat (length (fgPointsOfSubspace g (lvl i))) = dataSize d i) ->
  let d' := fold_left (fun d q => addBody fully g c v (position levels q) q d) qs d in
  sameShape d d' /\ kzero d' /\
  forall i j, 0 <= i < n -> copied fully d i -> 0 <= j < dataSize d i ->
    (In (lvl i) qs -> dData d' (off d i + j)%Z = (dData d (off d i + j)%Z + c * v (nth (Z.to_nat j) (fgPointsOfSubspace g (lvl i)) 0%Z))%Qc) /\
    (~ In (lvl i) qs -> dData d' (off d i + j)%Z = dData d (off d i + j)%Z).
Proof.
  intros fully g c v. induction qs as [|q qs IH]; intros d R ND HF HC.
  { cbn. split; [apply sameShape_refl|]. split; [apply R|]. intros i j _ _ _. split; auto. intros []. }
  cbn [fold_left]. set (d1 := addBody fully g c v (position levels q) q d). inv ND.
  assert (S1 : sameShape d d1 /\ kzero d1 /\ forall i j, 0 <= i < n -> copied fully d i -> 0 <= j < dataSize d i ->
    (lvl i = q -> dData d1 (off d i + j)%Z = (dData d (off d i + j)%Z + c * v (nth (Z.to_nat j) (fgPointsOfSubspace g (lvl i)) 0%Z))%Qc) /\
    (lvl i <> q -> dData d1 (off d i + j)%Z = dData d (off d i + j)%Z)).
  { unfold d1, addBodyR. destruct (in_dec (list_eq_dec Z.eq_dec) q levels) as [Hin|Hin].
    - destruct (position_In q Hin) as [P1 P2]. set (p := position levels q) in *.
      destruct (ready_ptr d R p P1) as (E1 & E2 & E3). rewrite E1, E2.
      destruct (shouldBeCopied fully d p) eqn:SC.
      + apply copied_spec in SC; auto.
        assert (LP : Z.of_nat (length (fgPointsOfSubspace g q)) = dataSize d p) by (rewrite <- P2; apply HC; auto; left; auto).
        destruct (addPoints_spec c v (fgPointsOfSubspace g q) (off d p) (off d p) d (proj2 (proj2 (proj2 (proj2 R)))) E3) as (Sh & K & D).
        split; auto. split; auto. intros i j Hi Ci Hj. rewrite D, LP. split.
        * intros Eq. assert (i = p) as -> by (rewrite <- (position_lvl i Hi), Eq; reflexivity).
          destruct (Z.leb_spec (off d p) (off d p + j)), (Z.ltb_spec (off d p + j) (off d p + dataSize d p)); try lia. cbn [andb].
          rewrite P2. do 3 f_equal. f_equal. lia.
        * intros Nq. assert (i <> p) by (intros ->; auto).
          destruct (Z.leb_spec (off d p) (off d i + j)), (Z.ltb_spec (off d i + j) (off d p + dataSize d p)); cbn [andb]; try ring.
          exfalso. destruct (Z.lt_trichotomy i p) as [X|[X|X]]; [|contradiction|].
          -- pose proof (off_disjoint d R i p ltac:(lia) (proj2 Ci)). lia.
          -- pose proof (off_disjoint d R p i ltac:(lia) (proj2 SC)). lia.
      + split; [apply sameShape_refl|]. split; [apply R|]. intros i j Hi Ci Hj. split; auto.
        intros Eq. assert (i = p) as -> by (rewrite <- (position_lvl i Hi), Eq; reflexivity).
        apply (copied_spec fully d p P1 HF) in Ci. congruence.
    - rewrite (position_notIn q Hin). cbn. split; [apply sameShape_refl|]. split; [apply R|]. intros i j Hi Ci Hj. split; auto.
      intros Eq. exfalso. apply Hin. rewrite <- Eq. now apply lvl_In. }
  destruct S1 as (Sh & K1 & D1). clearbody d1. pose proof (ready_same d d1 R Sh K1) as R1.
  pose proof Sh as (S1 & S2 & S3 & S4 & S5 & S6).
  assert (DS : forall i, dataSize d1 i = dataSize d i) by (intros; unfold dataSize; now rewrite S1).
  assert (CP : forall i, copied fully d1 i <-> copied fully d i) by (intros i; unfold copied; rewrite DS, S2; tauto).
  assert (OF : forall i, off d1 i = off d i) by (intros; unfold off; now rewrite S1, S2).
  destruct (IH d1 R1) as (J1 & J2 & J3); auto.
  { rewrite S2. auto. }
  { intros i Hi Hin Ci. rewrite DS. apply HC; auto. now right. now apply CP. }
  split; [eapply sameShape_trans; eauto|]. split; auto. intros i j Hi Ci Hj.
  destruct (J3 i j Hi (proj2 (CP i) Ci) ltac:(now rewrite DS)) as [K3 K4]. rewrite OF in *.
  destruct (D1 i j Hi Ci Hj) as [K5 K6]. split.
  - intros [Eq|Hin].
    + rewrite K4 by (rewrite <- Eq; auto). apply K5. auto.
    + rewrite K3 by auto. rewrite K6; auto. intros Eq. rewrite <- Eq in *. contradiction.
  - intros N. rewrite K4, K6; auto; intros X; apply N; [left|right]; auto.
Qed.

(** Extraction into a grid whose subspaces are listed without repetition. *)
Lemma extract_fold : forall fully d g qs v k, ready d -> NoDup qs ->
  (fully = true -> forall i, 0 <= i < n -> In i (dWith d)) ->
  (forall q, In q qs -> NoDup (fgPointsOfSubspace g q)) ->
  (forall q q', In q qs -> In q' qs -> In k (fgPointsOfSubspace g q) -> In k (fgPointsOfSubspace g q') -> q = q') ->
  let v' := fold_left (fun v q => extractBody fully d g (position levels q) q v) qs v in
  ((forall q, In q qs -> In k (fgPointsOfSubspace g q) -> In q levels -> ~ copied fully d (position levels q)) -> v' k = v k) /\
  (forall q j, In q qs -> In q levels -> copied fully d (position levels q) -> (j < length (fgPointsOfSubspace g q))%nat ->
     nth j (fgPointsOfSubspace g q) 0 = k -> v' k = dData d (off d (position levels q) + Z.of_nat j)).
Proof.
  intros fully d g qs v k R ND HF HN HU. revert v. induction qs as [|q qs IH]; intros v; cbn [fold_left].
  { split; auto. intros q j []. }
  inv ND. set (v1 := extractBody fully d g (position levels q) q v).
  destruct (IH H2 (fun x Hx => HN x (or_intror Hx)) (fun x y Hx Hy => HU x y (or_intror Hx) (or_intror Hy)) v1) as [I1 I2].
  assert (V1 : (In q levels -> copied fully d (position levels q) -> forall j, (j < length (fgPointsOfSubspace g q))%nat ->
       nth j (fgPointsOfSubspace g q) 0 = k -> v1 k = dData d (off d (position levels q) + Z.of_nat j)) /\
     ((In k (fgPointsOfSubspace g q) -> In q levels -> ~ copied fully d (position levels q)) -> v1 k = v k)).
  { unfold v1, extractBody. destruct (in_dec (list_eq_dec Z.eq_dec) q levels) as [Hin|Hin].
    - destruct (position_In q Hin) as [P1 P2]. destruct (ready_ptr d R _ P1) as (E1 & _). rewrite E1.
      pose proof (copied_spec fully d _ P1 HF) as CS.
      pose proof (copyPoints_spec d (fgPointsOfSubspace g q) (off d (position levels q)) v k) as [CP1 CP2].
      destruct (shouldBeCopied fully d (position levels q)).
      + split; [intros _ _ j Hj E; apply CP2; auto; apply HN; now left|]. intros N. apply CP1. intros X. apply (N X Hin). now apply CS.
      + split; auto. intros _ C. apply CS in C. discriminate.
    - rewrite (position_notIn q Hin). cbn. split; auto. contradiction. }
  destruct V1 as [V1 V2]. split.
  - intros N. rewrite I1; [apply V2|]; [intros X Y; apply (N q); auto; now left|intros q' Hq'; apply N; now right].
  - intros q' j [<-|Hq'] HiL HC Hj E.
    + rewrite I1; [apply V1; auto|]. intros q'' Hq'' X _ _. assert (q'' = q); [|congruence].
      apply HU; auto; [now right|now left|]. rewrite <- E. now apply nth_In.
    + now apply (I2 q' j).
Qed.
End Transfer.

(** ** Whole tasks *)

(** [l] is a hierarchical subspace of component grid [c]. *)
Definition containsL (c : Comp) (l : list Z) : Prop := Forall2 (fun x y => 1 <= x <= y) l (gLevel (cGrid c)).

(** A part of a component grid; every thread gets its levels in ascending order and together they get the whole down set. *)
Definition goodComp (dim : nat) (c : Comp) : Prop :=
  wfGrid (cGrid c) /\ length (gLevel (cGrid c)) = dim /\ Forall (StronglySorted lexlt) (cThreads c) /\
  Permutation (concat (cThreads c)) (getDownSet (gLevel (cGrid c))).

Definition pointsOf (c : Comp) (l : list Z) : list Z := fgPointsOfSubspace (cGrid c) l.

(** What component [c] contributes to point [j] of subspace [l]. *)
Definition contribution (l : list Z) (j : Z) (c : Comp) : Qc :=
  if vleb l (gLevel (cGrid c)) then (cCoeff c * cValues c (nth (Z.to_nat j) (pointsOf c l) 0%Z))%Qc else 0%Qc.

Lemma Forall2_flip : forall {A B} (P : A -> B -> Prop) l l', Forall2 P l l' <-> Forall2 (fun b a => P a b) l' l.
Proof. intros A B P l l'. split; induction 1; constructor; auto. Qed.

Lemma downSet_contains : forall c l, In l (getDownSet (gLevel (cGrid c))) <-> containsL c l.
Proof. intros c l. rewrite getDownSet_In. unfold containsL. rewrite Forall2_flip. reflexivity. Qed.

Lemma containsL_length : forall c l, containsL c l -> length l = length (gLevel (cGrid c)).
Proof. intros c l H. now apply Forall2_length in H. Qed.

Lemma not_lexlt_ones : forall l L, Forall2 (fun x y => 1 <= x <= y) l L -> ~ lexlt l (repeat 1 (length l)).
Proof. induction 1; intros H1; cbn [length repeat] in H1; inv H1; [lia|auto]. Qed.

Lemma vleb_contains : forall c l, Forall (Z.le 1) l -> length l = length (gLevel (cGrid c)) ->
  (vleb l (gLevel (cGrid c)) = true <-> containsL c l).
Proof.
  intros c l P E. rewrite vleb_spec by auto. unfold containsL. split.
  - intros F. revert P. induction F; intros P; inv P; constructor; auto; lia.
  - apply Forall2_weak.
Qed.

Section Tasks.
Variables (dim : nat) (levels' : list (list Z)).
Let levels := repeat 1 dim :: levels'.
Hypothesis HL : sortedLevels dim levels.
Hypothesis HP : Forall (Forall (Z.le 1)) levels.
Let n := Z.of_nat (length levels).
Let lvl (i : Z) := nth (Z.to_nat i) levels [].

Lemma lvl_In' : forall i, 0 <= i < n -> In (lvl i) levels.
Proof. intros i Hi. apply nth_In. unfold n in Hi. lia. Qed.

Lemma lvl_contains : forall c i, goodComp dim c -> 0 <= i < n ->
  (vleb (lvl i) (gLevel (cGrid c)) = true <-> containsL c (lvl i)).
Proof.
  intros c i (_ & LC & _) Hi. apply lvl_In' in Hi. destruct HL as [_ HD]. rewrite Forall_forall in HD, HP.
  apply vleb_contains; auto. rewrite LC. auto.
Qed.

Lemma threads_spec : forall c, goodComp dim c ->
  Forall (StronglySorted lexlt) (cThreads c) /\
  Forall (fun q => length q = dim /\ ~ lexlt q (repeat 1 dim)) (concat (cThreads c)) /\
  NoDup (concat (cThreads c)) /\ (forall l, In l (concat (cThreads c)) <-> containsL c l).
Proof.
  intros c (W & LC & S & P). assert (I : forall l, In l (concat (cThreads c)) <-> containsL c l).
  { intros l. rewrite <- downSet_contains. split; apply Permutation_in; [|apply Permutation_sym]; auto. }
  split; auto. split; [|split]; auto.
  - apply Forall_forall. intros q Hq. apply I in Hq. pose proof (containsL_length _ _ Hq) as E. split; [lia|].
    rewrite <- LC, <- E. eapply not_lexlt_ones. exact Hq.
  - eapply Permutation_NoDup; [apply Permutation_sym; exact P|]. apply lexsorted_NoDup. apply downSetRec_sorted.
Qed.

Lemma forLevels_comp : forall {St} (body : Z -> list Z -> St -> St) c s, goodComp dim c ->
  forLevels body levels (cThreads c) s = Some (fold_left (fun s q => body (position levels q) q s) (concat (cThreads c)) s).
Proof. intros St body c s G. destruct (threads_spec c G) as (A & B & _). apply (forLevels_spec body dim); auto. Qed.

(** All tasks have the same number of points in common subspaces. *)
Definition agree (cs : list Comp) : Prop :=
  forall a b l, In a cs -> In b cs -> containsL a l -> containsL b l -> length (pointsOf a l) = length (pointsOf b l).

Lemma registerAll_spec : forall cnt cs d, (forall q, 0 <= cnt q < 2 ^ 32) -> Forall (goodComp dim) cs ->
  (forall c l, In c cs -> containsL c l -> Z.of_nat (length (pointsOf c l)) = cnt l) ->
  dsgInv (length levels) d ->
  (forall i, 0 <= i < n -> dataSize d i = 0 \/ dataSize d i = cnt (lvl i)) ->
  exists d', registerAll levels cs d = Some d' /\ dsgInv (length levels) d' /\ dWith d' = dWith d /\
    (forall i, 0 <= i < n -> dataSize d' i = 0 \/ dataSize d' i = cnt (lvl i)) /\
    (forall i, 0 <= i < n -> dataSize d i = cnt (lvl i) -> dataSize d' i = cnt (lvl i)) /\
    (forall i c, 0 <= i < n -> In c cs -> containsL c (lvl i) -> dataSize d' i = cnt (lvl i)) /\
    (forall i, 0 <= i < n -> (forall c, In c cs -> ~ containsL c (lvl i)) -> dataSize d' i = dataSize d i).
Proof.
  intros cnt. induction cs as [|c cs IH]; intros d HC HG HA I HD.
  - exists d. cbn [registerAll]. split; auto. split; auto. split; auto. split; auto. split; auto. split; auto. intros i c _ [].
  - inv HG. cbn [registerAll]. unfold registerDFG. rewrite forLevels_comp by auto.
    destruct (threads_spec c H1) as (_ & _ & _ & T).
    destruct (register_fold dim levels HL cnt HC (cGrid c) (concat (cThreads c)) d I HD) as (J1 & J2 & J3 & J4 & J5 & J6).
    { intros q Hq. apply T in Hq. rewrite numPoints_length; [|apply H1|exact Hq]. apply HA; auto. now left. }
    set (d1 := fold_left _ _ d) in *. clearbody d1.
    destruct (IH d1 HC H2 (fun c' l H => HA c' l (or_intror H)) J1 J3) as (d' & E & K1 & K2 & K3 & K4 & K5 & K6).
    exists d'. split; auto. split; auto. split; [congruence|]. split; auto. split; [|split].
    + intros i Hi Ed. apply K4; auto. apply J4; auto.
    + intros i c' Hi [<-|Hc] Hl; [|now apply (K5 i c')]. apply K4; auto. apply J5; auto. now apply T.
    + intros i Hi HN. rewrite K6 by (auto; intros c' Hc'; apply HN; now right). apply J6; auto.
      intros X. apply T in X. apply (HN c); auto. now left.
Qed.

Lemma create_ready : forall esz d, dsgInv (length levels) d -> dKLen d = 0 -> accumulatedSize (dSizes d) (chosen d) < 2 ^ 32 ->
  let d' := createSubspaceData esz d in
  ready levels d' /\ dSizes d' = dSizes d /\ dWith d' = chosen d /\ (forall k, dData d' k = 0%Qc).
Proof.
  intros esz d I HK HT d'. pose proof (create_inv _ esz d I) as I'. fold d' in I'.
  set (e := {| dSizes := dSizes d; dWith := chosen d; dPtr := layout (dSizes d) 0 0 (chosen d);
               dLen := accumulatedSize (dSizes d) (chosen d); dData := zeroA; dKPtr := dKPtr d; dKLen := dKLen d; dKahan := dKahan d |}).
  assert (E : d' = createKahanBuffer esz e).
  { unfold d', createSubspaceData. cbv zeta. fold e. change (dKLen e) with (dKLen d). now rewrite HK. }
  assert (C : chosen e = chosen d).
  { unfold chosen, e. cbn [dWith dSizes numSubspaces]. unfold chosen. change (numSubspaces _) with (numSubspaces d) at 3.
    destruct (dWith d); auto. destruct (zrange 0 (numSubspaces d)) eqn:Z; auto. }
  split; [|rewrite E; cbn [createKahanBuffer dSizes dWith dData]; rewrite C; auto].
  split; auto. rewrite E. unfold createKahanBuffer. rewrite C. cbn.
  split; [split; reflexivity|]. split; [split; reflexivity|]. split; auto.
  intros k Hk. cbn. rewrite HK. unfold resizeZero. destruct (Z.ltb_spec k 0); [lia|]. now destruct (_ <=? _).
Qed.

Lemma setZero_ready : forall d, ready levels d -> ready levels (setZero d).
Proof. intros d R. apply (ready_same levels d); auto; [repeat split|]. intros k _. reflexivity. Qed.

Lemma addAll_spec : forall fully cs d, ready levels d -> Forall (goodComp dim) cs ->
  (fully = true -> forall i, 0 <= i < n -> In i (dWith d)) ->
  (forall c i, In c cs -> 0 <= i < n -> containsL c (lvl i) -> 0 < dataSize d i -> In i (dWith d) ->
     Z.of_nat (length (pointsOf c (lvl i))) = dataSize d i) ->
  exists d', addAll fully levels cs d = Some d' /\ sameShape d d' /\ kzero d' /\
    forall i j, 0 <= i < n -> In i (dWith d) -> 0 <= j < dataSize d i ->
      dData d' (off d i + j)%Z = (dData d (off d i + j)%Z + qsum (map (contribution (lvl i) j) cs))%Qc.
Proof.
  intros fully. induction cs as [|c cs IH]; intros d R HG HF HA.
  - exists d. cbn. split; auto. split; [apply sameShape_refl|]. split; [apply R|]. intros. change (qsum []) with 0%Qc. ring.
  - inv HG. cbn [addAll]. unfold addDFGR. rewrite forLevels_comp by auto. destruct (threads_spec c H1) as (_ & _ & ND & T).
    destruct (add_fold dim levels HL fully (cGrid c) (cCoeff c) (cValues c) (concat (cThreads c)) d R ND HF) as (S1 & K1 & D1).
    { intros i Hi Hin [C1 C2]. apply T in Hin. apply HA; auto. now left. }
    set (d1 := fold_left _ _ d) in *. clearbody d1.
    pose proof (ready_same levels d d1 R S1 K1) as R1. pose proof S1 as (E1 & E2 & _).
    assert (DS : forall i, dataSize d1 i = dataSize d i) by (intros; unfold dataSize; now rewrite E1).
    assert (OF : forall i, off d1 i = off d i) by (intros; unfold off; now rewrite E1, E2).
    destruct (IH d1 R1 H2) as (d' & E & S2 & K2 & D2).
    { rewrite E2. auto. }
    { intros c' i Hc. rewrite DS, E2. apply HA. now right. }
    exists d'. split; auto. split; [eapply sameShape_trans; eauto|]. split; auto. intros i j Hi HW Hj.
    specialize (D2 i j Hi). rewrite E2, DS, OF in D2. rewrite D2 by auto.
    destruct (D1 i j Hi ltac:(split; auto; lia) Hj) as [A B]. fold (lvl i) in A, B. cbn [map]. change (qsum (?x :: ?l)) with (x + qsum l)%Qc.
    unfold contribution at 2. pose proof (lvl_contains c i H1 Hi) as VC. destruct (vleb (lvl i) (gLevel (cGrid c))).
    + rewrite A by (apply T; now apply VC). unfold pointsOf. ring.
    + rewrite B; [ring|]. intros X. apply T in X. apply VC in X. discriminate.
Qed.

Lemma extract_spec : forall fully d c v0, ready levels d -> goodComp dim c ->
  (fully = true -> forall i, 0 <= i < n -> In i (dWith d)) ->
  (forall i, 0 <= i < n -> containsL c (lvl i) -> 0 < dataSize d i -> In i (dWith d) -> Z.of_nat (length (pointsOf c (lvl i))) = dataSize d i) ->
  exists v, extractDFG fully levels (cThreads c) d (cGrid c) v0 = Some v /\
    (forall i j, 0 <= i < n -> containsL c (lvl i) -> In i (dWith d) -> 0 <= j < dataSize d i ->
       v (nth (Z.to_nat j) (pointsOf c (lvl i)) 0) = dData d (off d i + j)) /\
    (forall l k, containsL c l -> In k (pointsOf c l) ->
       (~ In l levels \/ ~ In (position levels l) (dWith d) \/ dataSize d (position levels l) = 0) -> v k = v0 k).
Proof.
  intros fully d c v0 R G HF HA. unfold extractDFG. rewrite forLevels_comp by auto. destruct (threads_spec c G) as (_ & _ & ND & T).
  eexists. split; [reflexivity|]. pose proof G as (W & LC & _).
  assert (U : forall k q q', In q (concat (cThreads c)) -> In q' (concat (cThreads c)) -> In k (fgPointsOfSubspace (cGrid c) q) ->
     In k (fgPointsOfSubspace (cGrid c) q') -> q = q').
  { intros k q q' Hq Hq' K1 K2. apply T in Hq, Hq'. apply fgPoints_In in K1, K2; auto.
    destruct K1 as (x & B1 & P1 & E1), K2 as (y & B2 & P2 & E2). rewrite <- P1, <- P2. f_equal.
    rewrite <- (unlin_lin (gSizes (cGrid c)) x), <- (unlin_lin (gSizes (cGrid c)) y) by auto. congruence. }
  pose proof (fun k => extract_fold levels fully d (cGrid c) (concat (cThreads c)) v0 k R ND HF
    (fun q Hq => fgPoints_NoDup (cGrid c) q W (proj1 (T q) Hq)) (U k)) as X.
  split.
  - intros i j Hi Hl HW Hj. destruct (X (nth (Z.to_nat j) (pointsOf c (lvl i)) 0)) as [_ B].
    assert (PL : position levels (lvl i) = i) by exact (position_lvl dim levels HL i Hi).
    assert (LP : Z.of_nat (length (pointsOf c (lvl i))) = dataSize d i) by (apply HA; auto; lia).
    rewrite (B (lvl i) (Z.to_nat j)); auto.
    + rewrite PL. f_equal. lia.
    + now apply T.
    + now apply lvl_In'.
    + rewrite PL. split; auto. lia.
    + fold (pointsOf c (lvl i)). lia.
  - intros l k Hl Hk HN. destruct (X k) as [A _]. apply A. intros q Hq Hkq Hin [C1 C2].
    assert (q = l) as -> by (apply (U k); auto; now apply T). destruct HN as [N|[N|N]]; [contradiction|contradiction|lia].
Qed.

Lemma extractAll_Forall2 : forall fully d cs, Forall (goodComp dim) cs ->
  (forall c, In c cs -> exists v, extractDFG fully levels (cThreads c) d (cGrid c) (cValues c) = Some v) ->
  exists vs, extractAll fully levels d cs = Some vs /\
    Forall2 (fun c c' => extractDFG fully levels (cThreads c) d (cGrid c) (cValues c) = Some (cValues c') /\ c' = withValues c (cValues c')) cs vs.
Proof.
  intros fully d. induction cs as [|c cs IH]; intros HG HE; [exists []; split; auto|].
  inv HG. destruct (HE c (or_introl eq_refl)) as [v Ev]. destruct (IH H2) as (r & Er & F); [intros c' Hc'; apply HE; now right|].
  exists (withValues c v :: r). cbn [extractAll]. rewrite Ev, Er. split; auto.
Qed.
End Tasks.
