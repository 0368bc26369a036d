(** C32, C33, C34, C64: interpolation and norms of distributed grids. *)
From Verif Require Import Base TensorModel TensorProofs PartitionModel PartitionProofs DecompModel SubspaceModel SubspaceProofs SubspaceProps Hier1dModel HierMassProofs DofModel DofProofs DofProps
  SparseGridModel SparseGridProps QcTools KahanModel InterpModel InterpProofs LocalPartProofs.
From Coq Require Import QArith Qcanon Permutation Lqa.
Open Scope Z_scope.
Ltac Zify.zify_post_hook ::= idtac.

(** The processes store the grid function [F]: process [r] keeps the value of the point with global multi-index [v] at the
    linear index of [v] in its own box. *)
Definition storesGrid (procs sizes : list Z) (decs : list (list Z)) (data : Z -> arr) (F : list Z -> Qc) : Prop :=
  forall r v, 0 <= r < zprod procs -> In v (boxPoints (lowerBounds procs decs r) (upperBounds procs sizes decs r)) ->
    data r (sequentialIndex (vsub (upperBounds procs sizes decs r) (lowerBounds procs decs r)) (vsub v (lowerBounds procs decs r))) = F v.

(** The multilinear interpolant of the whole grid: every point weighted with the product of the hat functions of mesh width
    2^-level around it. Without boundary points the first point is at 1; with one-sided boundary the point 0 is also at the
    upper end. [hat] and [axisWeight]: InterpProofs.v. *)
Definition interpolant (levels bs : list Z) (F : list Z -> Qc) (xs : list Qc) : Qc :=
  qsum (map (fun v => pointWeight bs levels v xs * F v)%Qc (boxPoints (repeat 0 (length levels)) (globalSizes levels bs))).

Definition goodGrid (procs levels bs : list Z) (decs : list (list Z)) : Prop :=
  validDec procs (globalSizes levels bs) decs /\ length bs = length levels /\ levels <> [] /\
  Forall (fun l => 1 <= l <= 28) levels /\ Forall (fun b => 0 <= b <= 2) bs.

Lemma globalSizes_length : forall levels bs, length bs = length levels -> length (globalSizes levels bs) = length levels.
Proof. intros. unfold globalSizes. rewrite map2_length; lia. Qed.
Lemma globalSizes_nth : forall levels bs i, length bs = length levels -> (i < length levels)%nat -> 1 <= nth i levels 0 ->
  nth i (globalSizes levels bs) 0 = 2 ^ nth i levels 0 + nth i bs 0 - 1.
Proof.
  intros levels bs i LB Hi HL. unfold globalSizes. rewrite (map2_nth _ _ _ _ _ _ i 0 0) by lia. unfold numDofNodal1.
  destruct (Z.gtb_spec (nth i levels 0) 0); [auto|lia].
Qed.
Lemma Forall_nthZ : forall (P : Z -> Prop) l i, Forall P l -> (i < length l)%nat -> P (nth i l 0).
Proof. intros P l i H Hi. rewrite Forall_forall in H. apply H. now apply nth_In. Qed.

Lemma goodGrid_axes : forall procs levels bs decs r xs, goodGrid procs levels bs decs -> 0 <= r < zprod procs ->
  Forall2 inDomain bs xs -> wfAxes (axesOfRank procs levels bs decs r) xs.
Proof.
  intros procs levels bs decs r xs (V & LB & HN & HL & HB) Hr HX. pose proof V as (V1 & V2 & Vd).
  pose proof (globalSizes_length levels bs LB) as LG. pose proof (localPart_wf _ _ _ r V Hr) as (W1 & W2 & W3 & W4).
  cbn [localPart lgLower lgUpper lgGlobal] in *. pose proof (Forall2_length _ _ _ _ _ HX) as LX.
  pose proof (coordsOfRank_inBox procs r (validDec_pos _ _ _ V) Hr) as IB. apply inBox_nth in IB as [LC IB].
  unfold axesOfRank, gridOfRank, gSizes; cbn [gLower gUpper].
  apply (Forall2_nth_iff _ _ _ 0 0) in W3 as [_ W3]. apply (Forall2_nth_iff _ _ _ 0 0) in W4 as [_ W4]. apply (Forall2_nth_iff _ _ _ 0 0%Qc) in HX as [_ HX].
  assert (LO : forall e, length (localOffsets e) = length e).
  { intros e. unfold localOffsets. generalize 1. induction e; intros; simpl; auto. }
  apply axesFrom_wf; try lia.
  - rewrite LO, vsub_length; lia.
  - intros i Hi. pose proof (Forall_nthZ _ levels i HL Hi) as L1. pose proof (Forall_nthZ _ bs i HB ltac:(lia)) as B1. cbv beta in L1, B1.
    specialize (W3 i ltac:(lia)). specialize (W4 i ltac:(lia)). rewrite globalSizes_nth in W4 by lia. specialize (HX i ltac:(lia)).
    split; auto. split; auto. split; auto. split; auto. split; auto.
    rewrite (lowerBounds_nth procs (globalSizes levels bs)) by (auto; lia). destruct (Vd i ltac:(lia)) as [E VV]. specialize (IB i ltac:(lia)). rewrite E in IB.
    destruct VV as (U1 & U2 & U3). unfold lo1. split.
    + intros ->. destruct (nth i decs []); simpl in *; lia.
    + intros Z0. destruct (Z.eq_dec (nth i (coordsOfRank procs r) 0) 0) as [|NE]; auto.
      specialize (U2 0%nat (Z.to_nat (nth i (coordsOfRank procs r) 0)) ltac:(lia)). destruct (nth i decs []); simpl in *; lia.
Qed.

(** ** C32 *)
Theorem C32_interpolation : forall procs levels bs decs data F xs, goodGrid procs levels bs decs ->
  storesGrid procs (globalSizes levels bs) decs data F ->
  Forall2 (fun b x => (0 <= x)%Qc /\ (x <= 1)%Qc /\ (b = 1 -> (x < 1)%Qc)) bs xs ->
  interpolatedValue procs levels bs decs xs data = interpolant levels bs F xs.
Proof.
  intros procs levels bs decs data F xs HG HS HX. unfold interpolatedValue, interpolant. pose proof HG as (V & LB & HN & HL & HB).
  pose proof (globalSizes_length levels bs LB) as LG. rewrite <- LG.
  rewrite <- (qs_perm _ _ (Permutation_map _ (tiles _ _ _ V))). rewrite qs_flat_map. apply qs_ext. intros r Hr. apply zrange_In in Hr.
  rewrite evalLocal_tensor by now apply goodGrid_axes. pose proof V as (V1 & V2 & _).
  pose proof (localPart_wf _ _ _ r V Hr) as (W1 & W2 & W3 & W4). cbn [localPart lgLower lgUpper lgGlobal] in *. pose proof (Forall2_length _ _ _ _ _ HX) as LX.
  assert (LO : forall e, length (localOffsets e) = length e).
  { intros e. unfold localOffsets. generalize 1. induction e; intros; simpl; auto. }
  unfold axesOfRank, gridOfRank, gSizes; cbn [gLower gUpper]. rewrite tensorSum_box; try lia.
  - apply qs_ext. intros v Hv. rewrite Z.add_0_l. rewrite <- (HS r v Hr Hv). reflexivity.
  - rewrite LO, vsub_length; lia.
  - pose proof (coordsOfRank_inBox procs r (validDec_pos _ _ _ V) Hr) as IB. apply inBox_length in IB. lia.
Qed.

Lemma hat_int : forall a b, hat (zq a - zq b)%Qc = if a =? b then 1%Qc else 0%Qc.
Proof.
  intros a b. rewrite hat_floor. assert (E : qfloor (zq a) = a). { apply qfloor_unique; [apply Qcle_refl|]. rewrite <- zq_1, <- zq_add. apply zq_lt. lia. }
  rewrite E. unfold at1. rewrite (Z.eqb_sym b a). destruct (Z.eqb_spec a b), (Z.eqb_spec b (a + 1)); try lia; ring.
Qed.

Lemma weight_at_point : forall bs levels v w xs, length bs = length levels -> length v = length levels -> length w = length levels -> length xs = length levels ->
  (forall i, (i < length levels)%nat -> 1 <= nth i levels 0 /\ 0 <= nth i bs 0 <= 2 /\
     0 <= nth i v 0 < 2 ^ nth i levels 0 + nth i bs 0 - 1 /\ 0 <= nth i w 0 < 2 ^ nth i levels 0 + nth i bs 0 - 1 /\
     (nth i xs 0 * zq (2 ^ nth i levels 0)%Z)%Qc = zq (nth i v 0 + (if nth i bs 0 =? 0 then 1 else 0))) ->
  pointWeight bs levels w xs = if list_eq_dec Z.eq_dec w v then 1%Qc else 0%Qc.
Proof.
  induction bs as [|b bs IH]; intros [|L levels] [|j v] [|k w] [|x xs]; simpl length; intros; try lia; try reflexivity.
  cbn [pointWeight]. rewrite (IH levels v w xs) by (try lia; intros i Hi; apply (H3 (S i)); lia).
  destruct (H3 0%nat ltac:(lia)) as (L1 & B1 & J1 & K1 & X1). cbn [nth] in *. unfold axisWeight. rewrite X1, !hat_int.
  assert (W : ((if j + (if b =? 0 then 1 else 0) =? k + (if b =? 0 then 1 else 0) then 1 else 0)
     + (if (b =? 1) && (k =? 0) then if j + (if b =? 0 then 1 else 0) =? 2 ^ L then 1 else 0 else 0))%Qc = if Z.eq_dec k j then 1%Qc else 0%Qc).
  { destruct (Z.eqb_spec b 1) as [->|].
    - change (1 =? 0) with false. cbv iota. destruct (Z.eqb_spec (j + 0) (2 ^ L)); [lia|].
      destruct (Z.eqb_spec (j + 0) (k + 0)), (Z.eq_dec k j), (Z.eqb_spec k 0); try lia; simpl andb; cbv iota; ring.
    - simpl andb. cbv iota. destruct (b =? 0); destruct (Z.eqb_spec (j + 1) (k + 1)), (Z.eqb_spec (j + 0) (k + 0)), (Z.eq_dec k j); try lia; ring. }
  rewrite W. destruct (Z.eq_dec k j) as [->|NE], (list_eq_dec Z.eq_dec w v) as [->|NE2]; destruct (list_eq_dec Z.eq_dec _ _); try congruence; try ring.
Qed.

(** At a point of the grid the interpolated value is the stored value. *)
Theorem C32_grid_points : forall procs levels bs decs data F v xs, goodGrid procs levels bs decs ->
  storesGrid procs (globalSizes levels bs) decs data F ->
  In v (boxPoints (repeat 0 (length levels)) (globalSizes levels bs)) -> length xs = length levels ->
  (forall i, (i < length levels)%nat -> (nth i xs 0 * zq (2 ^ nth i levels 0)%Z)%Qc = zq (nth i v 0 + (if nth i bs 0 =? 0 then 1 else 0))) ->
  interpolatedValue procs levels bs decs xs data = F v.
Proof.
  intros procs levels bs decs data F v xs HG HS Hv LX HC. pose proof HG as (V & LB & HN & HL & HB).
  pose proof (globalSizes_length levels bs LB) as LG.
  assert (BX : forall w, In w (boxPoints (repeat 0 (length levels)) (globalSizes levels bs)) -> length w = length levels /\
     forall i, (i < length levels)%nat -> 1 <= nth i levels 0 /\ 0 <= nth i bs 0 <= 2 /\ 0 <= nth i w 0 < 2 ^ nth i levels 0 + nth i bs 0 - 1).
  { intros w Hw. rewrite <- LG in Hw at 1. apply boxPoints_sizes_In, inBox_nth in Hw as [A B]. split; [lia|]. intros i Hi.
    pose proof (Forall_nthZ _ levels i HL Hi) as L1. pose proof (Forall_nthZ _ bs i HB ltac:(lia)) as B1. cbv beta in L1, B1.
    specialize (B i ltac:(lia)). rewrite globalSizes_nth in B by lia. lia. }
  destruct (BX v Hv) as [LV BV].
  rewrite (C32_interpolation procs levels bs decs data F xs HG HS).
  - unfold interpolant. rewrite (qs_ext _ (fun w => if list_eq_dec Z.eq_dec w v then F v else 0%Qc)).
    + pose proof (boxPoints_NoDup (repeat 0 (length levels)) (globalSizes levels bs)) as ND. revert Hv ND.
      generalize (boxPoints (repeat 0 (length levels)) (globalSizes levels bs)). clear. induction l as [|w l IH]; intros Hv ND; [destruct Hv|].
      inversion ND; subst. cbn [map]. change (qsum (?a :: ?b)) with (a + qsum b)%Qc. destruct (list_eq_dec Z.eq_dec w v) as [->|NE].
      * rewrite qs_zero; [ring|]. intros w Hw. destruct (list_eq_dec Z.eq_dec w v); congruence.
      * rewrite IH; auto. ring. destruct Hv; [congruence|auto].
    + intros w Hw. destruct (BX w Hw) as [LW BW]. rewrite (weight_at_point bs levels v w xs); try lia.
      * destruct (list_eq_dec Z.eq_dec w v); [subst|]; ring.
      * intros i Hi. destruct (BV i Hi) as (A1 & A2 & A3). destruct (BW i Hi) as (_ & _ & A4). split; [lia|]. split; [lia|]. split; [lia|]. split; [lia|]. now apply HC.
  - apply (Forall2_nth_iff _ _ _ 0 0%Qc). split; [lia|]. intros i Hi. destruct (BV i ltac:(lia)) as (A1 & A2 & A3). specialize (HC i ltac:(lia)).
    set (x := nth i xs 0%Qc) in *. set (b := nth i bs 0) in *. set (j := nth i v 0) in *. set (L := nth i levels 0) in *.
    assert (PN : 0 < 2 ^ L) by (apply Z.pow_pos_nonneg; lia).
    assert (Pz : (0 < zq (2 ^ L))%Qc) by (rewrite <- zq_0; apply zq_lt; lia).
    split; [|split].
    + apply Qcnot_lt_le. intros C. apply (Qcmult_lt_compat_r _ _ _ Pz) in C. rewrite HC in C. replace (0 * zq (2 ^ L))%Qc with (zq 0) in C by (rewrite zq_0; ring).
      apply zq_lt_inv in C. destruct (b =? 0); lia.
    + apply Qcnot_lt_le. intros C. apply (Qcmult_lt_compat_r _ _ _ Pz) in C. rewrite HC in C. replace (1 * zq (2 ^ L))%Qc with (zq (2 ^ L)) in C by ring.
      apply zq_lt_inv in C. destruct (Z.eqb_spec b 0); lia.
    + intros B1. apply Qcnot_le_lt. intros C. apply (Qcmult_le_compat_r _ _ (zq (2 ^ L))) in C; [|now apply Qclt_le_weak]. rewrite HC in C.
      replace (1 * zq (2 ^ L))%Qc with (zq (2 ^ L)) in C by ring. apply zq_le_inv in C. destruct (Z.eqb_spec b 0); lia.
Qed.

(** ** C33 *)
Lemma step_at_one : forall a i up, wfAxis a -> aBnd a = 1 -> lowIndex a 1 = Some i -> axisStep a 1 i up = None.
Proof.
  intros a i up HA HB Hi. unfold lowIndex in Hi. rewrite (axis_index a HA 1%Qc) in Hi.
  assert (EF : qfloor (1 * zq (2 ^ aLevel a)) = 2 ^ aLevel a).
  { replace (1 * zq (2 ^ aLevel a))%Qc with (zq (2 ^ aLevel a)) by ring. apply qfloor_unique; [apply Qcle_refl|]. rewrite <- zq_1, <- zq_add. apply zq_lt. lia. }
  assert (EN : noLower a = 0) by (unfold noLower; rewrite HB; reflexivity).
  pose proof (axis_global a HA 0%Qc) as EG. destruct HA as (H1 & H2 & H3 & H4 & H5).
  rewrite EF, EN in Hi. assert (i = 2 ^ aLevel a - aLower a).
  { destruct (_ <? -1); [discriminate|]. destruct (_ && _ && _); [injection Hi; lia|]. destruct (_ >? _); [discriminate|injection Hi; lia]. }
  subst i. unfold axisStep. rewrite EG. destruct (_ <? 0); auto.
  destruct (Z.gtb_spec (2 ^ aLevel a - (aLower a) + Z.b2z up) (localSize a - 1)).
  - destruct up; simpl Z.b2z; auto. rewrite HB. cbn [andb]. destruct (Z.eqb_spec (2 ^ aLevel a - aLower a + 1) (2 ^ aLevel a + 1 - 1)); auto.
    exfalso. unfold lowIndex in Hi. assert (L1 : aLower a = 1) by lia.
    destruct (_ <? -1); [discriminate|]. destruct (aFirst a) eqn:EF1; [destruct H5 as [H5 _]; specialize (H5 eq_refl); lia|]. rewrite andb_false_r in Hi.
    destruct (Z.gtb_spec (2 ^ aLevel a - (aLower a + 0)) (localSize a - 1)); [discriminate|]. unfold localSize in *. lia.
  - unfold localSize in *. destruct up; simpl Z.b2z in *; lia.
Qed.

Lemma neighbor_at_one : forall axes xs, Forall2 (fun a x => wfAxis a) axes xs ->
  Exists (fun ax => aBnd (fst ax) = 1 /\ snd ax = 1%Qc) (combine axes xs) ->
  forall li it phi idx, lowIndices axes xs = Some li -> fst (neighbor axes xs li it phi idx) = 0%Qc.
Proof.
  induction 1 as [|a x axes xs HA HF IH]; intros HE li it phi idx Hl; [inversion HE|].
  cbn [lowIndices] in Hl. destruct (lowIndex a x) as [i|] eqn:Ei; [|discriminate].
  destruct (lowIndices axes xs) as [is|]; [|discriminate]. injection Hl as <-. rewrite neighbor_step.
  cbn [combine] in HE. inversion HE as [? ? [HB HX]|? ? HE']; subst.
  - cbn [fst snd] in *. subst x. now rewrite (step_at_one a i _ HA HB Ei).
  - destruct (axisStep a x i (Z.odd it)) as [[w k]|]; auto.
Qed.

Lemma evalLocal_at_one : forall axes xs data, Forall2 (fun a x => wfAxis a) axes xs ->
  Exists (fun ax => aBnd (fst ax) = 1 /\ snd ax = 1%Qc) (combine axes xs) -> evalLocal axes xs data = 0%Qc.
Proof.
  intros axes xs data HF HE. unfold evalLocal. destruct (lowIndices axes xs) as [li|] eqn:E; auto. unfold evalNeighbors.
  generalize (zrange 0 (powerOfTwoByBitshift (Z.of_nat (length axes)))). intros its.
  induction its as [|it its IH]; auto. cbn [fold_left].
  pose proof (neighbor_at_one axes xs HF HE li it 1%Qc (innerProduct li (map aOffset axes) 0) E) as P.
  destruct (neighbor axes xs li it 1 (innerProduct li (map aOffset axes) 0)) as [p k]. cbn [fst] in P. subst p.
  destruct (qltb_spec 0 0) as [C|]; [|exact IH]. exfalso. now apply Qlt_irrefl in C.
Qed.

Lemma axes_combine : forall levels bs lo up offs coords xs i, 
  length bs = length levels -> length lo = length levels -> length up = length levels -> length offs = length levels ->
  length coords = length levels -> length xs = length levels -> (i < length levels)%nat ->
  nth i bs 0 = 1 -> nth i xs 0%Qc = 1%Qc ->
  Exists (fun ax => aBnd (fst ax) = 1 /\ snd ax = 1%Qc) (combine (axesFrom levels bs lo up offs coords) xs).
Proof.
  induction levels as [|L levels IH]; intros [|b bs] [|l lo] [|u up] [|o offs] [|c coords] [|x xs] [|i]; simpl length; intros; try lia; cbn [axesFrom combine nth] in *.
  - constructor. auto.
  - apply Exists_cons_tl. apply (IH bs lo up offs coords xs i); auto; lia.
Qed.

(** With periodic boundary, interpolating at coordinate 1 gives 0 on every grid, for every decomposition and all data: the value
    stored at coordinate 0 never contributes. *)
Theorem C33_upper_end_refuted : forall procs levels bs decs data xs d, goodGrid procs levels bs decs ->
  Forall (fun x => (0 <= x)%Qc /\ (x <= 1)%Qc) xs -> length xs = length levels ->
  (d < length levels)%nat -> nth d bs 0 = 1 -> nth d xs 0%Qc = 1%Qc ->
  interpolatedValue procs levels bs decs xs data = 0%Qc.
Proof.
  intros procs levels bs decs data xs d HG HX LX Hd HB H1. unfold interpolatedValue. apply qs_zero. intros r Hr. apply zrange_In in Hr.
  pose proof HG as (V & LB & HN & HL & HBs). pose proof V as (V1 & V2 & _). pose proof (globalSizes_length levels bs LB) as LG.
  pose proof (localPart_wf _ _ _ r V Hr) as (W1 & W2 & _). cbn [localPart lgLower lgUpper lgGlobal] in *.
  apply evalLocal_at_one.
  - assert (G0 : wfAxes (axesOfRank procs levels bs decs r) (repeat 0%Qc (length bs))).
    { apply goodGrid_axes; auto. apply (Forall2_nth_iff _ _ _ 0 0%Qc). rewrite repeat_length. split; auto. intros i Hi. rewrite nth_repeat.
      unfold inDomain. assert (A : (0 < 1)%Qc) by (rewrite <- zq_0, <- zq_1; apply zq_lt; lia). split; [apply Qcle_refl|]. split; auto. now apply Qclt_le_weak. }
    unfold wfAxes in G0. pose proof (Forall2_length _ _ _ _ _ G0) as LA. rewrite repeat_length in LA.
    apply (Forall2_nth_iff _ _ _ {| aLevel := 1; aBnd := 0; aLower := 0; aUpper := 1; aOffset := 1; aFirst := true |} 0%Qc).
    split; [lia|]. intros i Hi. apply (Forall2_nth_iff _ _ _ {| aLevel := 1; aBnd := 0; aLower := 0; aUpper := 1; aOffset := 1; aFirst := true |} 0%Qc) in G0 as [_ G0].
    now destruct (G0 i Hi).
  - unfold axesOfRank, gridOfRank, gSizes; cbn [gLower gUpper].
    assert (LO : forall e, length (localOffsets e) = length e).
    { intros e. unfold localOffsets. generalize 1. induction e; intros; simpl; auto. }
    apply (axes_combine _ _ _ _ _ _ _ d); auto; try lia.
    + rewrite LO, vsub_length; lia.
    + pose proof (coordsOfRank_inBox procs r (validDec_pos _ _ _ V) Hr) as IB. apply inBox_length in IB. lia.
Qed.

(** ** C34 *)
Lemma stores_local : forall procs sizes decs data F, validDec procs sizes decs -> sizes <> [] -> storesGrid procs sizes decs data F ->
  forall r k, 0 <= r < zprod procs -> let g := localPart procs sizes decs r in 0 <= k < numLocal g ->
    data r k = F (vadd (lgLower g) (getVectorIndex (lgLocalSizes g) k)).
Proof.
  intros procs sizes decs data F V HN HS r k Hr g Hk. pose proof (localPart_wf _ _ _ r V Hr) as HW. fold g in HW.
  assert (HN' : lgGlobal g <> []) by exact HN. rewrite numLocal_zprod in Hk by auto. pose proof (wfLocal_sizes_pos g HW) as P.
  rewrite getVectorIndex_unlin by auto. pose proof (unlin_inBox (lgLocalSizes g) k P) as IB.
  destruct (local_in_global g _ HW IB) as (A & B & C). rewrite <- HS with (r := r); auto.
  - change (lowerBounds procs decs r) with (lgLower g). rewrite C. change (vsub (upperBounds procs sizes decs r) (lgLower g)) with (lgLocalSizes g).
    rewrite sequentialIndex_lin, lin_unlin by auto. reflexivity.
  - apply (Permutation_in _ (local_points g HN' HW)). apply in_map_iff. exists k. rewrite getVectorIndex_unlin by auto. split; auto.
    apply zrange_In. rewrite numLocal_zprod; auto.
Qed.

(** The maximum norm is the largest absolute value over the points of the whole grid. *)
Theorem C34_max_norm : forall procs sizes decs data F, validDec procs sizes decs -> sizes <> [] -> storesGrid procs sizes decs data F ->
  let m := maxNorm procs sizes decs data in
  let points := boxPoints (repeat 0 (length sizes)) sizes in
  (exists v, In v points /\ qabs (F v) = m) /\ (forall v, In v points -> (qabs (F v) <= m)%Qc).
Proof.
  intros procs sizes decs data F V HN HS m points.
  pose proof (stores_local _ _ _ _ _ V HN HS) as SL.
  set (local := fun r => fold_left (fun m i => qmax m (qabs (data r i))) (zrange 0 (numLocal (localPart procs sizes decs r))) 0%Qc).
  assert (HP : 0 < zprod procs). { apply zprod_pos. exact (validDec_pos _ _ _ V). }
  assert (EM : m = fold_left (fun m r => qmax m (local r)) (zrange 1 (zprod procs)) (local 0)) by reflexivity.
  pose proof (foldMax local (zrange 1 (zprod procs)) (local 0)) as [M1 M2]. rewrite <- EM in M1, M2.
  assert (ER : local 0 :: map local (zrange 1 (zprod procs)) = map local (zrange 0 (zprod procs))).
  { unfold zrange. replace (Z.to_nat (zprod procs - 0)) with (S (Z.to_nat (zprod procs - 1))) by lia. reflexivity. }
  rewrite ER in M1, M2.
  assert (UB : forall v, In v points -> (qabs (F v) <= m)%Qc).
  { intros v Hv. apply (all_points procs sizes decs v V HN) in Hv. destruct Hv as (r & k & Hr & Hk & ->).
    rewrite <- (SL r k Hr Hk). eapply Qcle_trans; [|apply M2; apply in_map, zrange_In; exact Hr].
    pose proof (foldMax (fun i => qabs (data r i)) (zrange 0 (numLocal (localPart procs sizes decs r))) 0%Qc) as [_ L2].
    apply L2. right. apply (in_map (fun i => qabs (data r i))). now apply zrange_In. }
  assert (NN : forall a, (0 <= qabs a)%Qc) by (intros a; destruct (qabs_cases a) as [[? ->]|[? ->]]; qlra).
  split; auto.
  apply in_map_iff in M1 as (r & Er & Hr). apply zrange_In in Hr.
  pose proof (foldMax (fun i => qabs (data r i)) (zrange 0 (numLocal (localPart procs sizes decs r))) 0%Qc) as [L1 L2].
  destruct L1 as [L1|L1].
  - (* the local maximum is the initial 0: then every value is 0 *)
    assert (Z0 : m = 0%Qc) by (rewrite <- Er; symmetry; exact L1).
    assert (EX : exists v, In v points).
    { exists (vadd (lgLower (localPart procs sizes decs 0)) (getVectorIndex (lgLocalSizes (localPart procs sizes decs 0)) 0)).
      apply (all_points procs sizes decs _ V HN). exists 0, 0. split; [lia|]. split; auto.
      pose proof (localPart_wf procs sizes decs 0 V ltac:(lia)) as HW. rewrite numLocal_zprod by auto.
      pose proof (zprod_pos _ (wfLocal_sizes_pos _ HW)). lia. }
    destruct EX as [v Hv]. exists v. split; auto. apply Qcle_antisym; auto. rewrite Z0. apply NN.
  - apply in_map_iff in L1 as (k & Ek & Hk). apply zrange_In in Hk.
    exists (vadd (lgLower (localPart procs sizes decs r)) (getVectorIndex (lgLocalSizes (localPart procs sizes decs r)) k)). split.
    + apply (all_points procs sizes decs _ V HN). eauto.
    + rewrite <- (SL r k Hr Hk), Ek. exact Er.
Qed.

(** Weight of a point: one half for every dimension with two-sided boundary in which it lies on the boundary. *)
Fixpoint boundaryWeight (bs sizes v : list Z) : Qc :=
  match bs, sizes, v with
  | b :: bs', n :: sizes', j :: v' => ((if (b =? 2) && ((j =? 0) || (j =? n - 1)) then Q2Qc (1 # 2) else 1) * boundaryWeight bs' sizes' v')%Qc
  | _, _, _ => 1%Qc
  end.

Lemma countBoundary_range : forall bs sizes v, 0 <= countBoundary bs sizes v <= Z.of_nat (length bs).
Proof.
  induction bs as [|b bs IH]; intros [|n sizes] [|j v]; cbn [countBoundary length]; try lia. specialize (IH sizes v). destruct (_ && _); lia.
Qed.
Lemma half_step : forall k, 0 <= k < 28 ->
  Q2Qc (nth (Z.to_nat (1 + k)) oneOverPowOfTwoTable 0%Q) = (Q2Qc (1 # 2) * Q2Qc (nth (Z.to_nat k) oneOverPowOfTwoTable 0%Q))%Qc.
Proof.
  intros k Hk. replace (Z.to_nat (1 + k)) with (S (Z.to_nat k)) by lia. assert (H : (Z.to_nat k < 28)%nat) by lia. generalize dependent (Z.to_nat k). intros n Hn.
  apply Qc_is_canon. rewrite this_mult, !this_Q2Qc. do 28 (destruct n as [|n]; [reflexivity|]). lia.
Qed.
Lemma boundary_table : forall bs sizes v, (length bs <= 28)%nat ->
  Q2Qc (nth (Z.to_nat (countBoundary bs sizes v)) oneOverPowOfTwoTable 0%Q) = boundaryWeight bs sizes v.
Proof.
  induction bs as [|b bs IH]; intros [|n sizes] [|j v] HL; try (apply Qc_is_canon; reflexivity).
  cbn [countBoundary boundaryWeight]. simpl length in HL. rewrite <- (IH sizes v) by lia. pose proof (countBoundary_range bs sizes v).
  destruct (_ && _).
  - apply half_step. lia.
  - rewrite Z.add_0_l. ring.
Qed.

(** What is under the p-th root is the weighted sum over the points of the whole grid, times the p-th power of the product of
    the mesh widths. *)
Theorem C34_p_sum : forall p procs levels bs decs data F, goodGrid procs levels bs decs -> (length levels <= 28)%nat ->
  storesGrid procs (globalSizes levels bs) decs data F ->
  lpRadicand p procs levels bs decs data
  = (qsum (map (fun v => Qcpower (qabs (F v)) p * boundaryWeight bs (globalSizes levels bs) v)
               (boxPoints (repeat 0%Z (length levels)) (globalSizes levels bs)))
     * Qcpower (innerIntegral levels) p)%Qc
  /\ (innerIntegral levels * zq (zprod (map (fun l => 2 ^ l)%Z levels)))%Qc = 1%Qc.
Proof.
  intros p procs levels bs decs data F (V & LB & HN & HL & HB) H28 HS. pose proof (globalSizes_length levels bs LB) as LG.
  assert (HN' : globalSizes levels bs <> []) by (intros C; rewrite C in LG; simpl in LG; destruct levels; simpl in *; congruence).
  split.
  - unfold lpRadicand. f_equal. unfold lpSum.
    rewrite (qs_ext _ (fun r => qsum (map (fun i => Qcpower (qabs (data r i)) p * Q2Qc (nth (Z.to_nat (boundaryCountOf bs (localPart procs (globalSizes levels bs) decs r) i)) oneOverPowOfTwoTable 0%Q))%Qc
        (zrange 0 (numLocal (localPart procs (globalSizes levels bs) decs r)))))).
    2:{ intros r _. cbv zeta. rewrite qs_fold. ring. }
    rewrite <- LG.
    apply (sum_all_points procs (globalSizes levels bs) decs (fun r i => Qcpower (qabs (data r i)) p * Q2Qc (nth (Z.to_nat (boundaryCountOf bs (localPart procs (globalSizes levels bs) decs r) i)) oneOverPowOfTwoTable 0%Q))%Qc
       (fun v => Qcpower (qabs (F v)) p * boundaryWeight bs (globalSizes levels bs) v)%Qc V HN').
    intros r k Hr g Hk. fold g. rewrite (stores_local _ _ _ _ _ V HN' HS r k Hr Hk). fold g. f_equal.
    unfold boundaryCountOf. pose proof (localPart_wf _ _ _ r V Hr) as HW. fold g in HW.
    destruct (globalOfLocalLinear_spec g k HW) as [E _]; [rewrite <- numLocal_zprod; auto|]. rewrite E.
    change (lgGlobal g) with (globalSizes levels bs). apply boundary_table. lia.
  - unfold innerIntegral. clear - HL.
    assert (G : forall s, (fold_left (fun s l => s * Q2Qc (nth (Z.to_nat l) oneOverPowOfTwoTable 0%Q)) levels s * zq (zprod (map (fun l => 2 ^ l)%Z levels)))%Qc = s).
    { induction HL as [|l levels H HL IH]; intros s; cbn [fold_left map].
      - change (zprod []) with 1. rewrite zq_1. ring.
      - change (zprod (?a :: ?b)) with (a * zprod b). rewrite zq_mul.
        transitivity (fold_left (fun s l => s * Q2Qc (nth (Z.to_nat l) oneOverPowOfTwoTable 0%Q))%Qc levels (s * Q2Qc (nth (Z.to_nat l) oneOverPowOfTwoTable 0%Q))%Qc
           * zq (zprod (map (fun l => 2 ^ l)%Z levels)) * zq (2 ^ l))%Qc; [ring|]. rewrite IH.
        assert (I : (Q2Qc (nth (Z.to_nat l) oneOverPowOfTwoTable 0%Q) * zq (2 ^ l))%Qc = 1%Qc).
        { apply Qc_is_canon. rewrite this_mult, this_zq, this_Q2Qc. apply (C54_power_table_partial l). lia. }
        transitivity (s * (Q2Qc (nth (Z.to_nat l) oneOverPowOfTwoTable 0%Q) * zq (2 ^ l)))%Qc; [ring|]. rewrite I. ring. }
    rewrite G. reflexivity.
Qed.

Lemma qs_const : forall n (c : Qc), 0 <= n -> qsum (map (fun _ => c) (zrange 0 n)) = (zq n * c)%Qc.
Proof.
  intros n c Hn. replace n with (Z.of_nat (Z.to_nat n)) at 2 by lia. unfold zrange. rewrite Z.sub_0_r. generalize (Z.to_nat n). clear. intros n.
  induction n; [change (Z.of_nat 0) with 0; rewrite zq_0; simpl; ring|]. rewrite zseq_S, map_app, qsum_app, IHn, Nat2Z.inj_succ. unfold Z.succ. rewrite zq_add, zq_1. simpl. ring.
Qed.

Lemma axis_mass : forall L b, 1 <= L -> b = 1 \/ b = 2 ->
  qsum (map (fun j => if (b =? 2) && ((j =? 0) || (j =? 2 ^ L + b - 1 - 1)) then Q2Qc (1 # 2) else 1%Qc) (zrange 0 (2 ^ L + b - 1))) = zq (2 ^ L).
Proof.
  intros L b HL Hb. pose proof (pow2_ge L HL). destruct Hb as [->| ->].
  - cbn [Z.eqb andb Pos.eqb]. rewrite qs_const by lia. replace (2 ^ L + 1 - 1) with (2 ^ L) by lia. ring.
  - cbn [Z.eqb andb Pos.eqb]. set (n := 2 ^ L + 2 - 1). set (h := Q2Qc (1 # 2)).
    rewrite (qs_ext _ (fun j => 1 + at1 (j =? 0) (- h) * 1 + at1 (j =? n - 1) (- h) * 1)%Qc).
    + rewrite !qs_plus. rewrite (qs_point (fun _ => 1%Qc)), (qs_point (fun _ => 1%Qc)), qs_const by lia.
      destruct (Z.leb_spec 0 0); [|lia]. destruct (Z.ltb_spec 0 n); [|lia]. destruct (Z.leb_spec 0 (n - 1)); [|lia]. destruct (Z.ltb_spec (n - 1) n); [|lia].
      cbn [andb at1]. unfold n. rewrite zq_sub, zq_add. assert (E : (zq 2 = 1 + 1)%Qc) by (apply Qc_is_canon; reflexivity). rewrite E, zq_1.
      assert (E2 : (h + h = 1)%Qc) by (apply Qc_is_canon; reflexivity). transitivity (zq (2 ^ L) + 1 - (h + h))%Qc; [ring|rewrite E2; ring].
    + intros j Hj. apply zrange_In in Hj. assert (E2 : (h + h = 1)%Qc) by (apply Qc_is_canon; reflexivity). unfold at1.
      destruct (Z.eqb_spec j 0), (Z.eqb_spec j (n - 1)); subst; try lia; cbn [orb]; try ring;
      (transitivity (h + h - h)%Qc; [ring|rewrite E2; ring]).
Qed.

Lemma grid_mass : forall levels bs, length bs = length levels -> Forall (fun l => 1 <= l <= 28) levels -> Forall (fun b => b = 1 \/ b = 2) bs ->
  qsum (map (boundaryWeight bs (globalSizes levels bs)) (boxPoints (repeat 0 (length levels)) (globalSizes levels bs)))
  = zq (zprod (map (fun l => 2 ^ l) levels)).
Proof.
  unfold boxPoints. induction levels as [|L levels IH]; intros [|b bs] LB HL HB; simpl length in LB; try lia.
  - apply Qc_is_canon. reflexivity.
  - inversion HL; subst. inversion HB; subst. cbn [length repeat].
    change (globalSizes (L :: levels) (b :: bs)) with ((match numDofNodal1 L b with Some n => n | None => 0 end) :: globalSizes levels bs).
    replace (match numDofNodal1 L b with Some n => n | None => 0 end) with (2 ^ L + b - 1) by (unfold numDofNodal1; destruct (Z.gtb_spec L 0); lia).
    cbn [map2 cart map]. change (zprod (?a :: ?b)) with (a * zprod b). rewrite zq_mul, <- (IH bs) by auto. rewrite <- (axis_mass L b) by (auto; lia).
    rewrite qs_flat_map. rewrite Qcmult_comm. rewrite <- qs_scale. apply qs_ext. intros j _. rewrite map_map.
    rewrite Qcmult_comm, <- qs_scale. apply qs_ext. intros v _. reflexivity.
Qed.

(** On grids with boundary points the 1-norm of a function of constant absolute value is that value: the code integrates exactly. *)
Theorem C34_l1_of_constant : forall procs levels bs decs data F c, goodGrid procs levels bs decs -> (length levels <= 28)%nat ->
  Forall (fun b => b = 1 \/ b = 2) bs -> storesGrid procs (globalSizes levels bs) decs data F ->
  (forall v, In v (boxPoints (repeat 0 (length levels)) (globalSizes levels bs)) -> qabs (F v) = c) ->
  lpRadicand 1 procs levels bs decs data = c.
Proof.
  intros procs levels bs decs data F c HG H28 HB HS HF. destruct (C34_p_sum 1 _ _ _ _ _ _ HG H28 HS) as [-> I].
  pose proof HG as (V & LB & HN & HL & _).
  rewrite (qs_ext _ (fun v => c * boundaryWeight bs (globalSizes levels bs) v)%Qc).
  - rewrite qs_scale, grid_mass by auto. cbn [Qcpower]. transitivity (c * (innerIntegral levels * zq (zprod (map (fun l => 2 ^ l)%Z levels))))%Qc; [ring|].
    rewrite I. ring.
  - intros v Hv. rewrite HF by auto. cbn [Qcpower]. ring.
Qed.

(** For other p the result is scaled wrongly (the comment in the code says so): the 2-norm of the constant 1 is not 1. *)
Theorem C34_two_norm_of_constant_refuted : exists procs levels bs decs data F, goodGrid procs levels bs decs /\
  Forall (fun b => b = 1 \/ b = 2) bs /\ storesGrid procs (globalSizes levels bs) decs data F /\ (forall v, F v = 1%Qc) /\
  lpRadicand 2 procs levels bs decs data <> 1%Qc.
Proof.
  exists [1], [2], [2], [[0]], (fun _ _ => 1%Qc), (fun _ => 1%Qc). split; [|split; [|split; [|split]]]; auto.
  - split; [|split; [|split; [|split]]]; auto; [|discriminate|constructor; [lia|constructor]|constructor; [lia|constructor]].
    split; [reflexivity|]. split; [reflexivity|]. intros [|i] Hi; simpl in Hi; [|lia]. split; [reflexivity|]. split; [reflexivity|]. split.
    + simpl. intros. lia.
    + intros [|j] Hj; simpl in Hj; [reflexivity|lia].
  - intros r v _ _. reflexivity.
  - intros C. apply (f_equal this) in C. vm_compute in C. discriminate.
Qed.

(** The decomposition does not matter. *)
Theorem C34_decomposition_independent : forall p procs procs' levels bs decs decs' data data' F, (length levels <= 28)%nat ->
  goodGrid procs levels bs decs -> storesGrid procs (globalSizes levels bs) decs data F ->
  goodGrid procs' levels bs decs' -> storesGrid procs' (globalSizes levels bs) decs' data' F ->
  lpRadicand p procs levels bs decs data = lpRadicand p procs' levels bs decs' data' /\
  maxNorm procs (globalSizes levels bs) decs data = maxNorm procs' (globalSizes levels bs) decs' data'.
Proof.
  intros p procs procs' levels bs decs decs' data data' F H28 G S G' S'. split.
  - destruct (C34_p_sum p _ _ _ _ _ _ G H28 S) as [-> _]. destruct (C34_p_sum p _ _ _ _ _ _ G' H28 S') as [-> _]. reflexivity.
  - pose proof G as (V & LB & HN & _). pose proof G' as (V' & _). pose proof (globalSizes_length levels bs LB) as LG.
    assert (HN' : globalSizes levels bs <> []) by (intros C; rewrite C in LG; simpl in LG; destruct levels; simpl in *; congruence).
    destruct (C34_max_norm _ _ _ _ _ V HN' S) as [(v & Hv & E) U]. destruct (C34_max_norm _ _ _ _ _ V' HN' S') as [(v' & Hv' & E') U'].
    apply Qcle_antisym; [rewrite <- E|rewrite <- E']; auto.
Qed.

(** ** C64: the combined solution *)
Lemma kahan_exact : forall {A} (f : A -> Qc) l v, fold_left (fun st k => kahanAdd st (f k)) l (v, 0%Qc) = ((v + qsum (map f l))%Qc, 0%Qc).
Proof.
  intros A f. induction l as [|a l IH]; intros v; cbn [fold_left map].
  - change (qsum []) with 0%Qc. f_equal. ring.
  - change (qsum (?a :: ?b)) with (a + qsum b)%Qc.
    replace (kahanAdd (v, 0%Qc) (f a)) with ((v + f a)%Qc, 0%Qc) by (unfold kahanAdd, kahanStep; cbn [fst snd]; f_equal; ring). rewrite IH. f_equal. ring.
Qed.

(** The interpolated value of the combined solution is the sum over all tasks of all groups of coefficient times interpolant. *)
Theorem C64_interpolated_combination : forall procs bs xs groups (fn : ITask -> list Z -> Qc),
  Forall2 (fun b x => (0 <= x)%Qc /\ (x <= 1)%Qc /\ (b = 1 -> (x < 1)%Qc)) bs xs ->
  (forall k, In k (concat groups) -> goodGrid procs (iLevels k) bs (iDecs k) /\ storesGrid procs (globalSizes (iLevels k) bs) (iDecs k) (iData k) (fn k)) ->
  interpolateValues procs bs xs groups
  = qsum (map (fun k => iCoeff k * interpolant (iLevels k) bs (fn k) xs)%Qc (concat groups)).
Proof.
  intros procs bs xs groups fn HX HT. unfold interpolateValues. induction groups as [|g groups IH]; [reflexivity|].
  cbn [map concat] in *. change (qsum (?a :: ?b)) with (a + qsum b)%Qc. rewrite map_app, qsum_app, <- IH by (intros; apply HT, in_or_app; auto). f_equal.
  unfold groupValue.
  rewrite (qs_ext _ (fun r => qsum (map (fun k => evalLocal (axesOfRank procs (iLevels k) bs (iDecs k) r) xs (iData k r) * iCoeff k)%Qc g))).
  - rewrite qs_swap. apply qs_ext. intros k Hk. destruct (HT k) as [HG HS]; [apply in_or_app; auto|].
    rewrite <- (C32_interpolation _ _ _ _ _ _ _ HG HS HX). unfold interpolatedValue. rewrite <- qs_scale. apply qs_ext. intros. ring.
  - intros r _. unfold processValue. rewrite kahan_exact. cbn [fst]. ring.
Qed.

(** It does not depend on which group holds which task, nor on the order. *)
Theorem C64_assignment_independent : forall procs bs xs groups groups',
  Permutation (concat groups) (concat groups') ->
  interpolateValues procs bs xs groups = interpolateValues procs bs xs groups'.
Proof.
  assert (G : forall procs bs xs groups, interpolateValues procs bs xs groups
     = qsum (map (fun k => qsum (map (fun r => evalLocal (axesOfRank procs (iLevels k) bs (iDecs k) r) xs (iData k r) * iCoeff k)%Qc (zrange 0 (zprod procs)))) (concat groups))).
  { intros procs bs xs groups. unfold interpolateValues. induction groups as [|g groups IH]; [reflexivity|].
    cbn [map concat]. change (qsum (?a :: ?b)) with (a + qsum b)%Qc. rewrite map_app, qsum_app, <- IH. f_equal. unfold groupValue. rewrite <- qs_swap.
    apply qs_ext. intros r _. unfold processValue. rewrite kahan_exact. cbn [fst]. ring. }
  intros procs bs xs groups groups' P. rewrite !G. apply qs_perm. now apply Permutation_map.
Qed.

(** The norm the manager reports for the combined solution is the sum of coefficient times norm. *)
Theorem C34_combined_norm : forall norms, combinedNorm norms = qsum (map (fun n => fst n * snd n)%Qc norms).
Proof. intros norms. unfold combinedNorm. rewrite (kahan_exact (fun n : Qc * Qc => fst n * snd n)%Qc). cbn [fst]. ring. Qed.

(** ** Examples *)
(** Every grid function is stored by some data. *)
Definition storedData (procs sizes : list Z) (decs : list (list Z)) (F : list Z -> Qc) : Z -> arr := fun r k =>
  let g := localPart procs sizes decs r in F (vadd (lgLower g) (getVectorIndex (lgLocalSizes g) k)).
Lemma storedData_stores : forall procs sizes decs F, validDec procs sizes decs -> sizes <> [] ->
  storesGrid procs sizes decs (storedData procs sizes decs F) F.
Proof.
  intros procs sizes decs F V HN r v Hr Hv. unfold storedData. set (g := localPart procs sizes decs r).
  pose proof (localPart_wf _ _ _ r V Hr) as HW. fold g in HW. pose proof HW as (W1 & W2 & _).
  change (boxPoints _ _) with (boxPoints (lgLower g) (lgUpper g)) in Hv. apply boxPoints_In in Hv as [L B]; [|lia].
  assert (HH : isGlobalIndexHere g v = true).
  { unfold isGlobalIndexHere, vgeb, vltb. apply andb_true_iff. split; (apply vall_spec; [lia|]); apply (Forall2_nth_iff _ _ _ 0 0); (split; [lia|]); intros i Hi; specialize (B i ltac:(lia)); lia. }
  destruct (here_local g v HW ltac:(lia) HH) as [IB E].
  change (vsub (upperBounds procs sizes decs r) (lowerBounds procs decs r)) with (lgLocalSizes g). change (lowerBounds procs decs r) with (lgLower g).
  rewrite sequentialIndex_lin. pose proof (lin_range _ _ IB) as R. rewrite getVectorIndex_unlin, unlin_lin by (auto; now apply wfLocal_sizes_pos). now rewrite E.
Qed.

Definition exF (v : list Z) : Qc := zq (nth 0 v 0 + 10 * nth 1 v 0).
Definition exSizes := globalSizes [2; 1] [1; 2].
Definition exIData := storedData [2; 1] exSizes [[0; 3]; [0]] exF.
Lemma exI_good : goodGrid [2; 1] [2; 1] [1; 2] [[0; 3]; [0]].
Proof.
  split; [|split; [|split; [|split]]]; auto; [|discriminate|repeat constructor; lia|repeat constructor; lia].
  split; [reflexivity|]. split; [reflexivity|]. intros [|[|i]] Hi; simpl in Hi; try lia; (split; [reflexivity|]); (split; [reflexivity|]); split.
  - intros [|[|i]] [|[|j]] H; simpl in *; lia.
  - intros [|[|i]] H; simpl in *; lia.
  - intros [|i] [|j] H; simpl in *; lia.
  - intros [|i] H; simpl in *; lia.
Qed.
(** Between the last point and the periodic image of the first one, which another process owns. *)
Example C32_ex : goodGrid [2; 1] [2; 1] [1; 2] [[0; 3]; [0]] /\ storesGrid [2; 1] exSizes [[0; 3]; [0]] exIData exF /\
  Forall2 (fun b x => (0 <= x)%Qc /\ (x <= 1)%Qc /\ (b = 1 -> (x < 1)%Qc)) [1; 2] [Q2Qc (7 # 8); Q2Qc (1 # 4)] /\
  interpolatedValue [2; 1] [2; 1] [1; 2] [[0; 3]; [0]] [Q2Qc (7 # 8); Q2Qc (1 # 4)] exIData = Q2Qc (13 # 2).
Proof.
  split; [apply exI_good|]. split; [apply storedData_stores; [apply exI_good|discriminate]|]. split.
  - repeat constructor; try (unfold Qcle, Qclt; simpl; unfold Qle, Qlt; simpl; lia); discriminate.
  - apply Qc_is_canon. vm_compute. reflexivity.
Qed.
Example C32_point_ex : In [3; 1] (boxPoints (repeat 0 2) exSizes) /\
  interpolatedValue [2; 1] [2; 1] [1; 2] [[0; 3]; [0]] [Q2Qc (3 # 4); Q2Qc (1 # 2)] exIData = exF [3; 1] /\ exF [3; 1] = zq 13.
Proof. split; [vm_compute; tauto|]. split; apply Qc_is_canon; vm_compute; reflexivity. Qed.
(** The same grid at coordinate 1: the value at coordinate 0 is 10. *)
Example C33_ex : exF [0; 1] = zq 10 /\
  interpolatedValue [2; 1] [2; 1] [1; 2] [[0; 3]; [0]] [0%Qc; Q2Qc (1 # 2)] exIData = zq 10 /\
  interpolatedValue [2; 1] [2; 1] [1; 2] [[0; 3]; [0]] [1%Qc; Q2Qc (1 # 2)] exIData = 0%Qc.
Proof. split; [reflexivity|]. split; apply Qc_is_canon; vm_compute; reflexivity. Qed.
Example C34_ex : maxNorm [2; 1] exSizes [[0; 3]; [0]] exIData = zq 23 /\
  lpRadicand 1 [2; 1] [2; 1] [1; 2] [[0; 3]; [0]] exIData = Q2Qc (23 # 2) /\
  lpRadicand 1 [2; 1] [2; 1] [1; 2] [[0; 3]; [0]] (storedData [2; 1] exSizes [[0; 3]; [0]] (fun _ => - zq 3)%Qc) = zq 3.
Proof. split; [|split]; apply Qc_is_canon; vm_compute; reflexivity. Qed.
Example C64_ex :
  let k1 := {| iLevels := [2; 1]; iDecs := [[0; 3]; [0]]; iCoeff := 1%Qc; iData := exIData |} in
  let k2 := {| iLevels := [1; 2]; iDecs := [[0; 1]; [0]]; iCoeff := (- (1))%Qc; iData := storedData [2; 1] (globalSizes [1; 2] [1; 2]) [[0; 1]; [0]] exF |} in
  interpolateValues [2; 1] [1; 2] [Q2Qc (1 # 8); Q2Qc (3 # 8)] [[k1]; [k2]] = Q2Qc (-29 # 4) /\
  interpolateValues [2; 1] [1; 2] [Q2Qc (1 # 8); Q2Qc (3 # 8)] [[]; [k2; k1]] = Q2Qc (-29 # 4).
Proof. split; apply Qc_is_canon; vm_compute; reflexivity. Qed.

Print Assumptions C32_interpolation.
Print Assumptions C32_grid_points.
Print Assumptions C33_upper_end_refuted.
Print Assumptions C34_max_norm.
Print Assumptions C34_p_sum.
Print Assumptions C34_l1_of_constant.
Print Assumptions C34_two_norm_of_constant_refuted.
Print Assumptions C34_decomposition_independent.
Print Assumptions C34_combined_norm.
Print Assumptions C64_interpolated_combination.
Print Assumptions C64_assignment_independent.
