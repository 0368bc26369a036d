(** C76-C79: the serial full grid. *)
From Verif Require Import Base TensorModel TensorProofs TensorProps PartitionModel PartitionProofs DecompModel DecompProofs DofModel DofProofs DofProps Level1dModel
  Level1dProofs SubspaceModel SubspaceProofs Hier1dModel Hier1dProofs HierMassProofs Hier1dProps SparseGridModel
  DistHierModel DistHierProofs DistExchangeProofs DistPoleProofs HierNDModel HierNDProofs HierLinProofs HierNDProps QcTools
  InterpModel InterpProofs InterpProps FullGridModel FullGridHierProofs FullGridProofs.
From Coq Require Import QArith Qcanon Lqa.
Open Scope Z_scope.
Ltac Zify.zify_post_hook ::= idtac.

(** A grid whose levels are in the range of the power table. *)
Definition goodFullGrid (levels bs : list Z) : Prop :=
  length bs = length levels /\ (length levels <= 28)%nat /\ Forall (fun l => 1 <= l <= 28) levels /\ Forall (fun b => 0 <= b <= 2) bs.

Lemma good_sizes : forall levels bs, goodFullGrid levels bs -> fgSizes levels bs = globalSizes levels bs /\ posExt (globalSizes levels bs).
Proof.
  intros levels bs (LB & _ & HL & HB). split; [|now apply fgSizes_pos]. apply fgSizes_global; auto. intros k Hk. now apply (Forall_nthZ _ levels k HL).
Qed.

Lemma scale_cancel : forall x y N, 0 < N -> (x * zq N = y * zq N)%Qc -> x = y.
Proof.
  intros x y N HN E. assert (NZ : zq N <> 0%Qc).
  { intros X. assert (0 < zq N)%Qc as Y by (rewrite <- zq_0; apply zq_lt; lia). rewrite X in Y. now apply Qclt_not_eq in Y. }
  rewrite <- (Qcmult_1_r x), <- (Qcmult_1_r y), <- (Qcmult_inv_r (zq N) NZ), !Qcmult_assoc, E. reflexivity.
Qed.

(** ** C76 *)
Theorem C76_vector_index : forall levels bs v, goodFullGrid levels bs -> validIndex (fgSizes levels bs) v ->
  fgVectorIndex (fgSizes levels bs) (fgLinearIndex (fgSizes levels bs) v) = v /\
  0 <= fgLinearIndex (fgSizes levels bs) v < fgElements levels bs.
Proof.
  intros levels bs v HG HV. pose proof (inBox_length _ _ HV) as LV. rewrite fgVectorIndex_eq, fgLinearIndex_eq, fgElements_prod by lia. split.
  - now apply C01_vector_roundtrip.
  - rewrite sequentialIndex_lin. now apply lin_range.
Qed.

Theorem C76_linear_index : forall levels bs i, goodFullGrid levels bs -> 0 <= i < fgElements levels bs ->
  fgLinearIndex (fgSizes levels bs) (fgVectorIndex (fgSizes levels bs) i) = i /\ validIndex (fgSizes levels bs) (fgVectorIndex (fgSizes levels bs) i).
Proof.
  intros levels bs i HG Hi. destruct (good_sizes _ _ HG) as [ES PE]. rewrite fgElements_prod in Hi. rewrite ES in *.
  rewrite fgVectorIndex_eq, getVectorIndex_unlin by auto. pose proof (unlin_inBox _ i PE) as IB. pose proof (inBox_length _ _ IB) as LV.
  rewrite fgLinearIndex_eq, sequentialIndex_lin, lin_unlin by (auto; lia). auto.
Qed.

(** The coordinate in every dimension is the index (counted from 1 without boundary points) times the mesh width. *)
Theorem C76_coordinates : forall levels bs i k, goodFullGrid levels bs -> 0 <= i < fgElements levels bs -> (k < length levels)%nat ->
  (nth k (fgCoords levels bs i) 0 * zq (2 ^ nth k levels 0%Z)%Z)%Qc
    = zq (nth k (fgVectorIndex (fgSizes levels bs) i) 0 + (if nth k bs 0 =? 0 then 1 else 0)) /\
  (0 <= nth k (fgCoords levels bs i) 0)%Qc /\ (nth k (fgCoords levels bs i) 0 <= 1)%Qc.
Proof.
  intros levels bs i k HG Hi Hk. destruct (good_sizes _ _ HG) as [ES PE]. rewrite fgElements_prod, ES in Hi. rewrite ES.
  destruct HG as (LB & HD & HL & HB). rewrite fgVectorIndex_eq, getVectorIndex_unlin by auto. split.
  - apply (proj1 (coord_scaled levels bs i k LB HL HB ltac:(lia) Hk)).
  - pose proof (coords_unit levels bs i LB HL HB ltac:(lia)) as U. rewrite Forall_forall in U. apply U. apply nth_In. rewrite fgCoords_length; auto.
Qed.

(** Level and index name the coordinate: index / 2^level, with an odd index (or level 0 and index 0 at the lower end), and the
    level does not exceed the level of the grid. *)
Theorem C76_level_index : forall levels bs i k, goodFullGrid levels bs -> 0 <= i < fgElements levels bs -> (k < length levels)%nat ->
  let (l, j) := nth k (fgLI levels bs i) (0, 0) in
  0 <= l <= nth k levels 0 /\ (nth k (fgCoords levels bs i) 0 * zq (2 ^ l))%Qc = zq j /\ (Z.odd j = true \/ (l = 0 /\ j = 0)).
Proof.
  intros levels bs i k HG Hi Hk. destruct (good_sizes _ _ HG) as [ES PE]. rewrite fgElements_prod, ES in Hi.
  destruct HG as (LB & HD & HL & HB). rewrite fgLI_nth by (auto; lia).
  destruct (coord_scaled levels bs i k LB HL HB ltac:(lia) Hk) as [E R]. pose proof (Forall_nthZ _ levels k HL Hk) as L1. pose proof (Forall_nthZ _ bs k HB ltac:(lia)) as B1. cbv beta in L1, B1.
  set (J := nth k (unlin (globalSizes levels bs) i) 0 + (if nth k bs 0 =? 0 then 1 else 0)) in *.
  assert (RJ : 0 <= J <= 2 ^ nth k levels 0) by (unfold J; destruct (Z.eqb_spec (nth k bs 0) 0); lia).
  pose proof (fgLI1_spec (nth k levels 0) J ltac:(lia) RJ) as H. destruct (fgLI1 (nth k levels 0) J) as [l j]. destruct H as (H1 & H2 & H3 & _).
  split; [auto|]. split; [|auto]. set (x := nth k (fgCoords levels bs i) 0%Qc) in *. set (L := nth k levels 0) in *. clearbody x L J.
  assert (P : 2 ^ L = 2 ^ l * 2 ^ (L - l)) by (rewrite <- Z.pow_add_r by lia; f_equal; lia).
  assert (Q : 0 < 2 ^ (L - l)) by (apply Z.pow_pos_nonneg; lia). rewrite P, H2 in E. rewrite !zq_mul in E.
  apply (scale_cancel _ _ _ Q). rewrite <- E. ring.
Qed.

Lemma zq_inj : forall a b, zq a = zq b -> a = b.
Proof. intros a b E. apply Z.le_antisymm; apply zq_le_inv; rewrite E; apply Qcle_refl. Qed.

(** Different elements have different levels and indices. *)
Theorem C76_level_index_injective : forall levels bs i i', goodFullGrid levels bs -> 0 <= i < fgElements levels bs -> 0 <= i' < fgElements levels bs ->
  fgLI levels bs i = fgLI levels bs i' -> i = i'.
Proof.
  intros levels bs i i' HG Hi Hi' E.
  assert (V : fgVectorIndex (fgSizes levels bs) i = fgVectorIndex (fgSizes levels bs) i').
  { destruct (C76_linear_index levels bs i HG Hi) as [_ V1]. destruct (C76_linear_index levels bs i' HG Hi') as [_ V2].
    pose proof (inBox_length _ _ V1) as N1. pose proof (inBox_length _ _ V2) as N2.
    assert (LS : length (fgSizes levels bs) = length levels) by (destruct HG as (LB & _); unfold fgSizes; rewrite map2_length; lia).
    apply (nth_ext _ _ 0 0); [lia|]. intros k Hk. assert (Hk' : (k < length levels)%nat) by lia.
    pose proof (C76_level_index levels bs i k HG Hi Hk') as A. pose proof (C76_level_index levels bs i' k HG Hi' Hk') as B. rewrite <- E in B.
    destruct (nth k (fgLI levels bs i) (0, 0)) as [l j]. destruct A as (A1 & A2 & _), B as (B1 & B2 & _). rewrite <- A2 in B2.
    assert (EX : nth k (fgCoords levels bs i') 0%Qc = nth k (fgCoords levels bs i) 0%Qc) by (eapply scale_cancel; [|exact B2]; apply Z.pow_pos_nonneg; lia).
    destruct (C76_coordinates levels bs i k HG Hi Hk') as [C1 _]. destruct (C76_coordinates levels bs i' k HG Hi' Hk') as [C2 _].
    rewrite EX, C1 in C2. apply zq_inj in C2. lia. }
  rewrite <- (proj1 (C76_linear_index levels bs i HG Hi)), <- (proj1 (C76_linear_index levels bs i' HG Hi')). now rewrite V.
Qed.

(** ** C77 *)

(** The element vector holds the values of [F] at the points of the grid. *)
Definition fgStores (levels bs : list Z) (data : arr) (F : list Z -> Qc) : Prop :=
  forall v, validIndex (fgSizes levels bs) v -> data (fgLinearIndex (fgSizes levels bs) v) = F v.
Definition inUnitCube (xs : list Qc) : Prop := Forall (fun x => (0 <= x)%Qc /\ (x <= 1)%Qc) xs.

(** In every dimension the piecewise linear function through the stored points, beyond them continued linearly (and the hat
    function around the only point of a dimension with one point); [linWeight], [fgWeight]: FullGridProofs.v. *)
Definition continued (levels bs : list Z) (F : list Z -> Qc) (xs : list Qc) : Qc :=
  qsum (map (fun v => fgPointWeight bs levels v xs * F v)%Qc (boxPoints (repeat 0 (length levels)) (globalSizes levels bs))).

Lemma box_valid : forall levels bs v, goodFullGrid levels bs -> In v (boxPoints (repeat 0 (length levels)) (globalSizes levels bs)) -> validIndex (globalSizes levels bs) v.
Proof.
  intros levels bs v (LB & _) Hv. rewrite <- (globalSizes_length levels bs LB) in Hv at 1. now apply boxPoints_sizes_In in Hv.
Qed.

(** The value is that of this function, if the coordinate in a dimension with one point is at most 1/2 (in the last dimension it
    may be any). *)
Theorem C77_eval_partial : forall levels bs xs data F, goodFullGrid levels bs -> length xs = length levels -> inUnitCube xs ->
  (forall k, (S k < length levels)%nat -> nth k levels 0 = 1 -> nth k bs 0 = 0 -> (nth k xs 0 <= qhalf)%Qc) ->
  fgStores levels bs data F -> fgEval levels bs xs data = continued levels bs F xs.
Proof.
  intros levels bs xs data F HG LX HX HLow HS. destruct (good_sizes _ _ HG) as [ES PE]. pose proof HG as (LB & HD & HL & HB).
  rewrite fgEval_box by auto. apply qs_ext. intros v Hv. f_equal. pose proof (box_valid _ _ _ HG Hv) as V. pose proof (inBox_length _ _ V) as LV.
  rewrite <- HS by (now rewrite ES). rewrite ES, fgLinearIndex_eq, sequentialIndex_lin by lia. reflexivity.
Qed.

(** Between the stored points this is the multilinear interpolant, as evaluated by the distributed grid (C32). *)
Theorem C77_inside_partial : forall levels bs xs data F, goodFullGrid levels bs -> length xs = length levels -> inUnitCube xs ->
  (forall k, (S k < length levels)%nat -> nth k levels 0 = 1 -> nth k bs 0 = 0 -> (nth k xs 0 <= qhalf)%Qc) ->
  (forall k, (k < length levels)%nat -> let L := nth k levels 0 in let b := nth k bs 0 in let x := nth k xs 0%Qc in
     b = 2 \/ (b = 1 /\ (x * zq (2 ^ L) <= zq (2 ^ L - 1))%Qc) \/
     (b = 0 /\ (L = 1 \/ ((1 <= x * zq (2 ^ L))%Qc /\ (x * zq (2 ^ L) <= zq (2 ^ L - 1))%Qc)))) ->
  fgStores levels bs data F -> fgEval levels bs xs data = interpolant levels bs F xs.
Proof.
  intros levels bs xs data F HG LX HX HLow HH HS. rewrite (C77_eval_partial levels bs xs data F) by auto. pose proof HG as (LB & HD & HL & HB).
  unfold continued, interpolant. apply qs_ext. intros v _. rewrite hull_pointWeight by auto. reflexivity.
Qed.

Theorem C77_full_boundary : forall levels bs xs data F, goodFullGrid levels bs -> length xs = length levels -> inUnitCube xs ->
  Forall (fun b => b = 2) bs -> fgStores levels bs data F -> fgEval levels bs xs data = interpolant levels bs F xs.
Proof.
  intros levels bs xs data F HG LX HX H2 HS. pose proof HG as (LB & _). apply C77_inside_partial; auto.
  - intros k Hk _ B0. pose proof (Forall_nthZ _ bs k H2 ltac:(lia)) as B. cbv beta in B. lia.
  - intros k Hk. left. apply (Forall_nthZ _ bs k H2 ltac:(lia)).
Qed.

Lemma select_sum : forall (F : list Z -> Qc) v l, NoDup l -> In v l -> qsum (map (fun w => (if list_eq_dec Z.eq_dec w v then 1 else 0) * F w)%Qc l) = F v.
Proof.
  intros F v l ND Hv. induction l as [|w l IH]; [destruct Hv|]. inversion ND; subst. cbn [map]. change (qsum (?a :: ?b)) with (a + qsum b)%Qc.
  destruct (list_eq_dec Z.eq_dec w v) as [->|NE].
  - rewrite qs_zero; [ring|]. intros w Hw. destruct (list_eq_dec Z.eq_dec w v); [congruence|ring].
  - destruct Hv; [congruence|]. rewrite IH by auto. ring.
Qed.

Lemma own_hull : forall levels bs i k, goodFullGrid levels bs -> 0 <= i < fgElements levels bs -> (k < length levels)%nat ->
  inHull (nth k levels 0) (nth k bs 0) (nth k (fgCoords levels bs i) 0%Qc).
Proof.
  intros levels bs i k HG Hi Hk. destruct (good_sizes _ _ HG) as [ES PE]. rewrite fgElements_prod, ES in Hi. destruct HG as (LB & HD & HL & HB).
  destruct (coord_scaled levels bs i k LB HL HB ltac:(lia) Hk) as [E R]. pose proof (Forall_nthZ _ bs k HB ltac:(lia)) as B1. cbv beta in B1.
  unfold inHull. rewrite E. destruct (Z.eqb_spec (nth k bs 0) 0) as [B0|B0].
  - right. right. split; auto. right. split; [rewrite <- zq_1|]; apply zq_le; lia.
  - destruct (Z.eq_dec (nth k bs 0) 2); [left; auto|]. right. left. split; [lia|]. apply zq_le. lia.
Qed.
Lemma own_low : forall levels bs i k, goodFullGrid levels bs -> 0 <= i < fgElements levels bs -> (k < length levels)%nat ->
  nth k levels 0 = 1 -> nth k bs 0 = 0 -> (nth k (fgCoords levels bs i) 0 <= qhalf)%Qc.
Proof.
  intros levels bs i k HG Hi Hk L1 B0. destruct (good_sizes _ _ HG) as [ES PE]. rewrite fgElements_prod, ES in Hi. destruct HG as (LB & HD & HL & HB).
  destruct (coord_scaled levels bs i k LB HL HB ltac:(lia) Hk) as [E R]. rewrite L1, B0 in *. change (0 =? 0) with true in E. cbv iota in E.
  change (2 ^ 1) with 2 in *. assert (Z0 : nth k (unlin (globalSizes levels bs) i) 0 = 0) by lia. rewrite Z0 in E. change (0 + 1) with 1 in E. rewrite zq_1 in E.
  assert (Z2 : zq 2 = (1 + 1)%Qc) by (change 2 with (1 + 1); rewrite zq_add, zq_1; reflexivity). rewrite Z2 in E.
  assert (HH : (qhalf + qhalf = 1)%Qc) by (apply Qc_is_canon; reflexivity). qlra.
Qed.

(** At its own points the grid has the stored values, for every boundary type. *)
Theorem C77_grid_points : forall levels bs data i, goodFullGrid levels bs -> 0 <= i < fgElements levels bs ->
  fgEval levels bs (fgCoords levels bs i) data = data i.
Proof.
  intros levels bs data i HG Hi. destruct (good_sizes _ _ HG) as [ES PE]. pose proof HG as (LB & HD & HL & HB).
  set (F := fun v => data (fgLinearIndex (fgSizes levels bs) v)).
  destruct (C76_linear_index levels bs i HG Hi) as [EI VI]. set (v := fgVectorIndex (fgSizes levels bs) i) in *.
  assert (LV : length v = length levels) by (pose proof (inBox_length _ _ VI) as Q; unfold fgSizes in Q; rewrite map2_length in Q by lia; lia).
  rewrite (C77_inside_partial levels bs _ data F); auto.
  - unfold interpolant. rewrite (qs_ext _ (fun w => (if list_eq_dec Z.eq_dec w v then 1 else 0) * F w)%Qc).
    + rewrite select_sum.
      * unfold F. now rewrite EI.
      * apply boxPoints_NoDup.
      * rewrite <- (globalSizes_length levels bs LB) at 1. apply boxPoints_sizes_In. rewrite <- ES. exact VI.
    + intros w Hw. f_equal. pose proof (box_valid _ _ _ HG Hw) as W. apply inBox_nth in W as [LW W]. rewrite ES in VI. apply inBox_nth in VI as [_ VI].
      rewrite globalSizes_length in LW by auto. apply weight_at_point; auto.
      * rewrite fgCoords_length; auto.
      * intros k Hk. pose proof (Forall_nthZ _ levels k HL Hk) as L1. pose proof (Forall_nthZ _ bs k HB ltac:(lia)) as B1. cbv beta in L1, B1.
        specialize (W k ltac:(rewrite globalSizes_length; auto)). specialize (VI k ltac:(rewrite globalSizes_length; auto)).
        rewrite globalSizes_nth in W, VI by (auto; lia). repeat (split; [lia|]). apply (proj1 (C76_coordinates levels bs i k HG Hi Hk)).
  - now apply fgCoords_length.
  - rewrite fgElements_prod, ES in Hi. apply coords_unit; auto; lia.
  - intros k Hk. apply own_low; auto; lia.
  - intros k Hk. now apply own_hull.
  - intros w _. reflexivity.
Qed.

(** Outside the unit cube the value is 0. *)
Theorem C77_outside : forall levels bs xs data, (exists x, In x xs /\ ((x < 0)%Qc \/ (1 < x)%Qc)) -> fgEval levels bs xs data = 0%Qc.
Proof.
  intros levels bs xs data (x & Hx & O). unfold fgEval. assert (E : existsb (fun x => qltb x 0 || qltb 1 x) xs = true).
  { apply existsb_exists. exists x. split; auto. destruct O as [O|O]; [destruct (qltb_spec x 0)|destruct (qltb_spec 1 x)]; auto; try contradiction. now rewrite orb_true_r. }
  now rewrite E.
Qed.

(** False in general: with one point per dimension, right of the point in both of two dimensions, the value is
    4 (1 - x0 - x1) times the stored one and not 4 (1 - x0) (1 - x1) times it. *)
Theorem C77_one_point_refuted : forall x0 x1 data F, (qhalf < x0)%Qc -> (x0 < 1)%Qc -> (qhalf < x1)%Qc -> (x1 < 1)%Qc ->
  fgStores [1; 1] [0; 0] data F ->
  fgEval [1; 1] [0; 0] [x0; x1] data = (zq 4 * (1 - x0 - x1) * F [0; 0]%Z)%Qc /\
  interpolant [1; 1] [0; 0] F [x0; x1] = (zq 4 * (1 - x0) * (1 - x1) * F [0; 0]%Z)%Qc.
Proof.
  intros x0 x1 data F A0 B0 A1 B1 HS. assert (HH : (qhalf + qhalf = 1)%Qc) by (apply Qc_is_canon; reflexivity).
  assert (D : data 0 = F [0; 0]). { rewrite <- HS by (repeat constructor; cbn; lia). reflexivity. } split.
  - unfold fgEval. cbn [existsb]. destruct (qltb_spec x0 0), (qltb_spec 1 x0), (qltb_spec x1 0), (qltb_spec 1 x1); try (exfalso; qlra). cbn [orb].
    change (zrange 0 (powerOfTwo (Z.of_nat (length [1; 1])))) with [0; 1; 2; 3]. cbn [combine rev app fgCorner fold_left].
    change (fgPoints 1 0) with 1. change (1 >? 1) with false. change (1 =? 1) with true. cbv iota.
    assert (FC : forall x, fst (fgCell 1 0 x) = 0).
    { intros x. unfold fgCell. change (fgPoints 1 0) with 1. change (0 >? 0) with false. cbv zeta iota. set (f := qfloor _). clearbody f.
      destruct (Z.ltb_spec f 0); [reflexivity|]. rewrite Z.geb_leb. destruct (Z.leb_spec 1 f); [reflexivity|].
      destruct (Z.leb_spec f 0); [reflexivity|lia]. }
    pose proof (FC x0) as F0. pose proof (FC x1) as F1. destruct (fgCell 1 0 x0) as [a0 t0], (fgCell 1 0 x1) as [a1 t1]. cbn [fst] in F0, F1. subst a0 a1.
    destruct (qltb_spec qhalf x0), (qltb_spec qhalf x1); try contradiction. cbn [Z.eqb].
    assert (D' : forall e, e = 0 -> data e = F [0; 0]) by (intros e ->; exact D). rewrite !D' by reflexivity.
    assert (Z4 : zq 4 = (1 + 1 + 1 + 1)%Qc) by (apply Qc_is_canon; reflexivity). rewrite Z4. ring.
  - unfold interpolant. change (boxPoints (repeat 0 (length [1; 1])) (globalSizes [1; 1] [0; 0])) with [[0; 0]]. cbn [map pointWeight].
    change (qsum [?q]) with (q + 0)%Qc. unfold axisWeight. change (0 =? 0) with true. change (0 =? 1) with false. cbn [andb]. cbv iota. change (0 + 1) with 1. change (2 ^ 1) with 2. rewrite zq_1.
    assert (Z2 : zq 2 = (1 + 1)%Qc) by (apply Qc_is_canon; reflexivity).
    assert (Z4 : zq 4 = (1 + 1 + 1 + 1)%Qc) by (apply Qc_is_canon; reflexivity).
    assert (HT : forall x, (qhalf < x)%Qc -> (x < 1)%Qc -> hat (x * zq 2 - 1)%Qc = ((1 + 1) * (1 - x))%Qc).
    { intros x H1 H2. unfold hat. rewrite Z2. rewrite qabs_pos by qlra. destruct (qltb_spec (x * (1 + 1) - 1) 1); [ring|exfalso; qlra]. }
    rewrite !HT by auto. rewrite Z4. ring.
Qed.

Lemma eval1 : forall L b x data F, 1 <= L <= 28 -> 0 <= b <= 2 -> (0 <= x)%Qc -> (x <= 1)%Qc -> fgStores [L] [b] data F ->
  fgEval [L] [b] [x] data = qsum (map (fun j => fgWeight b L j x * F [j])%Qc (zrange 0 (2 ^ L + b - 1))) /\
  interpolant [L] [b] F [x] = qsum (map (fun j => axisWeight b L j x * F [j])%Qc (zrange 0 (2 ^ L + b - 1))).
Proof.
  intros L b x data F HL Hb X0 X1 HS.
  assert (HG : goodFullGrid [L] [b]) by (split; [reflexivity|]; split; [simpl; lia|]; split; constructor; auto; constructor).
  assert (EB : boxPoints (repeat 0 (length [L])) (globalSizes [L] [b]) = map (fun j => [j]) (zrange 0 (2 ^ L + b - 1))).
  { unfold boxPoints, globalSizes. cbn [map2 repeat length cart map]. unfold numDofNodal1. destruct (Z.gtb_spec L 0); [|lia].
    clear. induction (zrange 0 (2 ^ L + b - 1)); simpl; auto. }
  split.
  - rewrite (C77_eval_partial [L] [b] [x] data F HG eq_refl); auto.
    + unfold continued. rewrite EB, map_map. apply qs_ext. intros j _. cbn [fgPointWeight]. ring.
    + constructor; auto; constructor.
    + intros k Hk. simpl in Hk. lia.
  - unfold interpolant. rewrite EB, map_map. apply qs_ext. intros j _. cbn [pointWeight]. ring.
Qed.

(** False in general: with a one-sided boundary the last cell does not lead back to the first point; the last two points are
    continued (for every level above 1; the value at coordinate 1 is 2 F(n-1) - F(n-2) and not F(0)). *)
Theorem C77_one_sided_refuted : forall L data F, 1 <= L <= 28 -> fgStores [L] [1] data F ->
  fgEval [L] [1] [1%Qc] data = (zq 2 * F [2 ^ L - 1]%Z - F [2 ^ L - 2]%Z)%Qc /\ interpolant [L] [1] F [1%Qc] = F [0].
Proof.
  intros L data F HL HS. pose proof (pow2_ge L ltac:(lia)) as P2.
  assert (O0 : (0 <= 1)%Qc) by (rewrite <- zq_0, <- zq_1; apply zq_le; lia).
  destruct (eval1 L 1 1%Qc data F HL ltac:(lia) O0 (Qcle_refl _) HS) as [E1 E2]. rewrite E1, E2. clear E1 E2.
  replace (2 ^ L + 1 - 1) with (2 ^ L) by lia. split.
  - rewrite (qs_ext _ (fun j => (at1 (j =? 2 ^ L - 2) (- (1)) + at1 (j =? 2 ^ L - 2 + 1) (1 + 1)) * F [j])%Qc).
    + rewrite (qs_at1 (2 ^ L) (2 ^ L - 2) (fun j => F [j])) by lia. replace (2 ^ L - 2 + 1) with (2 ^ L - 1) by lia.
      assert (Z2 : zq 2 = (1 + 1)%Qc) by (apply Qc_is_canon; reflexivity). rewrite Z2. ring.
    + intros j Hj. apply zrange_In in Hj. f_equal. unfold fgWeight. destruct (Z.eqb_spec (2 ^ L + 1 - 1) 1); [lia|].
      replace (2 ^ L + 1 - 1) with (2 ^ L) by lia.
      assert (EG : gridPos L 1 1 = zq (2 ^ L)) by (unfold gridPos; change (1 =? 0) with false; cbv iota; rewrite zq_0; ring).
      rewrite EG, (lin_cell (2 ^ L) (2 ^ L - 2)); try lia.
      * f_equal; f_equal; rewrite zq_sub; assert (Z2 : zq 2 = (1 + 1)%Qc) by (apply Qc_is_canon; reflexivity); rewrite Z2; ring.
      * right. left. split; auto. apply zq_le. lia.
  - rewrite (qs_ext _ (fun j => at1 (j =? 0) 1 * F [j])%Qc).
    + rewrite (qs_point (fun j => F [j])) by lia. destruct (Z.ltb_spec 0 (2 ^ L)); [|lia]. simpl. ring.
    + intros j Hj. apply zrange_In in Hj. f_equal. unfold axisWeight. change (1 =? 0) with false. change (1 =? 1) with true. cbv iota.
      rewrite !Qcmult_1_l, Z.add_0_r, !hat_int. unfold at1. destruct (Z.eqb_spec (2 ^ L) j); [lia|]. rewrite Z.eqb_refl. cbn [andb].
      destruct (j =? 0); ring.
Qed.

(** Without boundary points the last cells are continued linearly, they do not go down to 0 at the boundary as the hat functions do. *)
Theorem C77_no_boundary_refuted : forall L data F, 2 <= L <= 28 -> fgStores [L] [0] data F ->
  fgEval [L] [0] [0%Qc] data = (zq 2 * F [0]%Z - F [1]%Z)%Qc /\ interpolant [L] [0] F [0%Qc] = 0%Qc.
Proof.
  intros L data F HL HS. pose proof (Z.pow_le_mono_r 2 2 L ltac:(lia) ltac:(lia)) as P2. change (2 ^ 2) with 4 in P2.
  assert (O0 : (0 <= 1)%Qc) by (rewrite <- zq_0, <- zq_1; apply zq_le; lia).
  destruct (eval1 L 0 0%Qc data F ltac:(lia) ltac:(lia) (Qcle_refl _) O0 HS) as [E1 E2]. rewrite E1, E2. clear E1 E2.
  replace (2 ^ L + 0 - 1) with (2 ^ L - 1) by lia. split.
  - rewrite (qs_ext _ (fun j => (at1 (j =? 0) (1 + 1) + at1 (j =? 0 + 1) (- (1))) * F [j])%Qc).
    + rewrite (qs_at1 (2 ^ L - 1) 0 (fun j => F [j])) by lia. change (0 + 1) with 1.
      assert (Z2 : zq 2 = (1 + 1)%Qc) by (apply Qc_is_canon; reflexivity). rewrite Z2. ring.
    + intros j Hj. apply zrange_In in Hj. f_equal. unfold fgWeight. destruct (Z.eqb_spec (2 ^ L + 0 - 1) 1); [lia|].
      replace (2 ^ L + 0 - 1) with (2 ^ L - 1) by lia.
      assert (EG : gridPos L 0 0 = (- (1))%Qc) by (unfold gridPos; change (0 =? 0) with true; cbv iota; rewrite zq_1; ring).
      assert (NG : (- (1) < 0)%Qc) by reflexivity. rewrite EG, (lin_cell (2 ^ L - 1) 0); try lia.
      * rewrite zq_0. f_equal; f_equal; ring.
      * left. split; auto.
  - apply qs_zero. intros j Hj. apply zrange_In in Hj. unfold axisWeight. change (0 =? 0) with true. change (0 =? 1) with false. cbn [andb]. cbv iota.
    rewrite Qcmult_0_l. rewrite hat_far; [ring|]. rewrite zq_add, zq_1. assert (0 <= zq j)%Qc by (rewrite <- zq_0; apply zq_le; lia). qlra.
Qed.

(** ** C78 *)

(** Adding another grid adds the coefficient times the value of the other grid at every own point, whichever of the two paths is
    taken (the other grid's function at the point, see C77). *)
Theorem C78_add_partial : forall levels bs dst levels' bs' src coeff F i, goodFullGrid levels bs -> goodFullGrid levels' bs' ->
  length levels' = length levels -> fgStores levels' bs' src F -> 0 <= i < fgElements levels bs ->
  (forall k, (S k < length levels')%nat -> nth k levels' 0 = 1 -> nth k bs' 0 = 0 -> (nth k (fgCoords levels bs i) 0 <= qhalf)%Qc) ->
  fgAdd levels bs dst levels' bs' src coeff i = (dst i + coeff * continued levels' bs' F (fgCoords levels bs i))%Qc.
Proof.
  intros levels bs dst levels' bs' src coeff F i HG HG' LL HS Hi HLow. destruct (good_sizes _ _ HG) as [ES PE].
  assert (EV : fgEval levels' bs' (fgCoords levels bs i) src = continued levels' bs' F (fgCoords levels bs i)).
  { pose proof HG as (LB & HD & HL & HB). apply C77_eval_partial; auto.
    - rewrite fgCoords_length; auto.
    - apply coords_unit; auto. lia. }
  assert (N0 : 0 <= fgElements levels bs) by lia. unfold fgAdd. rewrite <- EV.
  destruct (list_eq_dec Z.eq_dec levels levels') as [E1|E1], (list_eq_dec Z.eq_dec bs bs') as [E2|E2]; cbn [andb].
  2-4: rewrite (fold_set (fun i y => (y + coeff * fgEval levels' bs' (fgCoords levels bs i) src)%Qc)) by auto;
       destruct (Z.leb_spec 0 i), (Z.ltb_spec i (fgElements levels bs)); try lia; reflexivity.
  rewrite (fold_set (fun i y => (y + coeff * src i)%Qc)) by auto. destruct (Z.leb_spec 0 i), (Z.ltb_spec i (fgElements levels bs)); try lia. cbn [andb].
  subst levels' bs'. rewrite C77_grid_points by auto. reflexivity.
Qed.

(** Evaluating a grid at the points of another one gives the values of the first grid there; from a grid to one with the same
    levels the values are copied. *)
Theorem C78_grid_eval_partial : forall levels bs src levels' dst F i, goodFullGrid levels bs -> goodFullGrid levels' bs ->
  fgStores levels bs src F -> 0 <= i < fgElements levels' bs ->
  (forall k, (S k < length levels)%nat -> nth k levels 0 = 1 -> nth k bs 0 = 0 -> (nth k (fgCoords levels' bs i) 0 <= qhalf)%Qc) ->
  fgGridEval levels bs src levels' dst i = continued levels bs F (fgCoords levels' bs i) /\ (levels' = levels -> fgGridEval levels bs src levels' dst i = src i).
Proof.
  intros levels bs src levels' dst F i HG HG' HS Hi HLow. pose proof HG' as (LB' & HD' & HL' & HB').
  assert (E : fgGridEval levels bs src levels' dst i = fgEval levels bs (fgCoords levels' bs i) src).
  { unfold fgGridEval. rewrite (fold_set (fun i _ => fgEval levels bs (fgCoords levels' bs i) src)) by lia.
    destruct (Z.leb_spec 0 i), (Z.ltb_spec i (fgElements levels' bs)); try lia. reflexivity. }
  rewrite E. split.
  - destruct HG as (LB & HR). apply C77_eval_partial; auto; [split; auto| |].
    + rewrite fgCoords_length; lia.
    + apply coords_unit; auto. lia.
  - intros ->. now apply C77_grid_points.
Qed.

(** ** C79 *)

(** Hierarchizing (dehierarchizing) a serial grid gives the same value at every point as the distributed sweeps on any process
    grid, for grids without and with full boundary. *)
Theorem C79_equals_distributed_partial : forall c (de : bool) stale val data G, wfCfg c ->
  (forall k, (k < length (hLevels c))%nat -> 1 <= nth k (hLevels c) 0 /\ (nth k (hBnds c) 0 = 0 \/ nth k (hBnds c) 0 = 2) /\
    nth k (hDims c) false = true /\ nth k (hBases c) Hat = Hat /\ nth k (hLmin c) 0 = 0) ->
  (forall v, inBox (hSizes c) v -> val (sequentialIndex (hSizes c) v) = G v) -> represents c G data ->
  exists h, (if de then dehierarchizeAll else hierarchizeAll) c stale data = Some h /\
    forall r v, 0 <= r < zprod (hProcs c) -> inBox (hLocalSizes c r) v ->
      h r (sequentialIndex (hLocalSizes c r) v) = serialAll de (hLevels c) (hBnds c) val (sequentialIndex (hSizes c) (vadd (hLower c r) v)).
Proof.
  intros c de stale val data G HW HC HV HR. set (ks := seq 0 (length (hLevels c))).
  assert (Ks : forall k, In k ks -> (k < length (hLevels c))%nat) by (intros; now apply seq_dims).
  assert (SU : supported c ks). { intros k Hk _. right. apply HC. now apply Ks. }
  destruct (sweepDims_spec c de ks stale G data HW Ks HR) as [A _]. destruct (A SU) as (h & Eh & Rh).
  exists h. split; [destruct de; exact Eh|]. intros r v Hr Hv. rewrite Rh by auto. symmetry.
  assert (SZ : fgElements (hLevels c) (hBnds c) = zprod (hSizes c)).
  { rewrite fgElements_prod. unfold hSizes. f_equal. pose proof HW as (_ & LB & _ & _ & HP). apply fgSizes_global; auto.
    intros k Hk. destruct (HC k Hk) as (L1 & _). destruct (HP k Hk) as (L2 & _). lia. }
  rewrite serialAll_rest, SZ.
  destruct (serialRest_spec c de (conj HW HC) (length (hLevels c)) 0 val G ltac:(lia) HV) as [S1 _]. cbn [skipn firstn] in S1. change (zprod []) with 1 in S1.
  apply S1. destruct (lower_len c HW r Hr) as (N1 & N2 & N3). destruct (lens c HW) as [LP _]. pose proof HW as (_ & _ & _ & V & _).
  apply (owns_inside (hProcs c) (hSizes c) (hDecs c) _ r); auto. pose proof (inBox_length _ _ Hv) as Lv. split; [rewrite vadd_length; lia|].
  intros i Hi. rewrite vadd_nth by lia. apply inBox_nth in Hv. destruct Hv as [_ Hv]. specialize (Hv i ltac:(lia)).
  rewrite (localSizes_nth c HW r i Hr ltac:(lia)) in Hv. unfold hLower, hUpper in *. lia.
Qed.

(** The serial configuration of a grid: one process. *)
Definition oneProcess (levels bs : list Z) : HCfg :=
  {| hProcs := map (fun _ => 1) levels; hLevels := levels; hBnds := bs; hDecs := map (fun _ => [0]) levels;
     hDims := map (fun _ => true) levels; hBases := map (fun _ => Hat) levels; hLmin := map (fun _ => 0) levels |}.

Lemma nth_const : forall {A B} (c d : B) (l : list A) k, (k < length l)%nat -> nth k (map (fun _ => c) l) d = c.
Proof. induction l as [|x l IH]; intros [|k] H; simpl in *; try lia; auto. apply IH. lia. Qed.

Lemma one_wf : forall levels bs, levels <> [] -> length bs = length levels -> Forall (fun l => 1 <= l <= 28) levels -> Forall (fun b => 0 <= b <= 2) bs ->
  wfCfg (oneProcess levels bs).
Proof.
  intros levels bs NE LB HL HB. unfold wfCfg, oneProcess, hSizes. cbn [hLevels hBnds hLmin hProcs hDecs]. rewrite map_length.
  split; [destruct levels; [congruence|simpl; lia]|]. split; [auto|]. split; [auto|]. split.
  - split; [now rewrite !map_length|]. split; [rewrite map_length, globalSizes_length; auto|]. rewrite map_length. intros i Hi.
    assert (E1 : nth i (map (fun _ => 1) levels) 0 = 1) by (now apply nth_const).
    assert (E2 : nth i (map (fun _ : Z => [0]) levels) [] = [0]) by (now apply nth_const).
    rewrite E1, E2. split; [reflexivity|]. split; [reflexivity|]. split; [simpl; lia|]. intros j Hj. simpl in Hj. assert (j = 0%nat) as -> by lia. cbn [nth].
    pose proof (Forall_nthZ _ levels i HL Hi) as L1. pose proof (Forall_nthZ _ bs i HB ltac:(lia)) as B1. cbv beta in L1, B1.
    rewrite globalSizes_nth by (auto; lia). pose proof (pow2_ge (nth i levels 0) ltac:(lia)). lia.
  - intros k Hk. pose proof (Forall_nthZ _ levels k HL Hk) as L1. pose proof (Forall_nthZ _ bs k HB ltac:(lia)) as B1. cbv beta in L1, B1.
    assert (E : nth k (map (fun _ => 0) levels) 0 = 0) by (now apply nth_const). rewrite E. lia.
Qed.
Lemma one_serial : forall levels bs, levels <> [] -> length bs = length levels -> Forall (fun l => 1 <= l <= 28) levels -> Forall (fun b => b = 0 \/ b = 2) bs ->
  serialCfg (oneProcess levels bs).
Proof.
  intros levels bs NE LB HL HB. split; [apply one_wf; auto; eapply Forall_impl; [|exact HB]; simpl; intros; lia|].
  unfold oneProcess. cbn [hLevels hBnds hLmin hDims hBases]. intros k Hk.
  pose proof (Forall_nthZ _ levels k HL Hk) as L1. pose proof (Forall_nthZ _ bs k HB ltac:(lia)) as B1. cbv beta in L1, B1.
  split; [lia|]. split; [auto|]. split; [|split].
  - now apply nth_const.
  - now apply nth_const.
  - now apply nth_const.
Qed.

Lemma serialAll_spec : forall levels bs de val G, levels <> [] -> length bs = length levels -> Forall (fun l => 1 <= l <= 28) levels ->
  Forall (fun b => b = 0 \/ b = 2) bs -> holds (globalSizes levels bs) val G ->
  holds (globalSizes levels bs) (serialAll de levels bs val) (opAll (oneProcess levels bs) de (seq 0 (length levels)) G) /\
  forall l, l < 0 \/ fgElements levels bs <= l -> serialAll de levels bs val l = val l.
Proof.
  intros levels bs de val G NE LB HL HB HV. pose proof (one_serial levels bs NE LB HL HB) as HC.
  assert (SZ : fgElements levels bs = zprod (globalSizes levels bs)).
  { rewrite fgElements_prod. f_equal. apply fgSizes_global; auto. intros k Hk. apply (Forall_nthZ _ levels k HL Hk). }
  rewrite serialAll_rest, SZ.
  destruct (serialRest_spec (oneProcess levels bs) de HC (length levels) 0 val G eq_refl HV) as [S1 S2]. cbn [skipn firstn] in S1, S2.
  change (zprod []) with 1 in S1, S2. split; [exact S1|exact S2].
Qed.

(** Dehierarchizing undoes hierarchizing and the other way round, for every element vector; nothing beyond the elements of the
    grid is written. *)
Theorem C79_roundtrip_partial : forall levels bs (de : bool) val l, levels <> [] -> length bs = length levels ->
  Forall (fun l => 1 <= l <= 28) levels -> Forall (fun b => b = 0 \/ b = 2) bs ->
  serialAll (negb de) levels bs (serialAll de levels bs val) l = val l /\
  (l < 0 \/ fgElements levels bs <= l -> serialAll de levels bs val l = val l).
Proof.
  intros levels bs de val l NE LB HL HB. set (sizes := globalSizes levels bs). set (G := fun v => val (sequentialIndex sizes v)).
  pose proof (one_serial levels bs NE LB HL HB) as [HW HC].
  assert (HB2 : Forall (fun b => 0 <= b <= 2) bs) by (eapply Forall_impl; [|exact HB]; simpl; intros; lia).
  assert (PE : posExt sizes) by now apply fgSizes_pos.
  assert (SZ : fgElements levels bs = zprod sizes).
  { rewrite fgElements_prod. f_equal. apply fgSizes_global; auto. intros k Hk. apply (Forall_nthZ _ levels k HL Hk). }
  assert (H0 : holds sizes val G) by (intros v Hv; reflexivity).
  destruct (serialAll_spec levels bs de val G NE LB HL HB H0) as [S1 S2].
  destruct (serialAll_spec levels bs (negb de) _ _ NE LB HL HB S1) as [T1 T2]. split; [|apply S2].
  destruct (Z_lt_dec l 0) as [N|N]; [rewrite T2, S2 by auto; reflexivity|].
  destruct (Z_lt_dec l (fgElements levels bs)) as [M|M]; [|rewrite T2, S2 by lia; reflexivity]. rewrite SZ in M.
  pose proof (unlin_inBox sizes l PE) as IB. pose proof (lin_unlin sizes l PE ltac:(lia)) as EL. rewrite <- EL, <- sequentialIndex_lin.
  rewrite T1 by auto.
  rewrite (opAll_roundtrip (oneProcess levels bs) de (seq 0 (length levels)) G HW); auto.
  - intros k Hk. apply in_seq in Hk. cbn [oneProcess hLevels]. lia.
  - apply seq_NoDup.
  - intros k v Hk _ _. destruct (HC k Hk) as (_ & _ & _ & F & _). rewrite F. apply hat_suitable.
Qed.

(** False with a one-sided boundary: in one dimension nothing is done at all, for every level and all data, whereas the distributed
    sweep subtracts the interpolated values. *)
Theorem C79_one_sided_refuted :
  (forall (de : bool) L val, 1 <= L <= 28 -> serialAll de [L] [1] val = val) /\
  wfCfg (oneProcess [1] [1]) /\
  exists data, match hierarchizeAll (oneProcess [1] [1]) (fun _ _ _ _ => 0%Qc) (fun _ => data) with
               | Some h => h 0 1 <> data 1
               | None => False
               end.
Proof.
  split; [|split].
  - intros de L val HL. unfold serialAll. assert (E : fgElements [L] [1] / serialPoints L 1 = 0).
    { unfold fgElements, fgSizes. cbn [map2 fold_left]. rewrite fgPoints_pow by lia. unfold serialPoints. change (1 =? 0) with false. cbv iota.
      apply Z.div_small. pose proof (pow2_ge L ltac:(lia)). lia. }
    cbv zeta. rewrite E. reflexivity.
  - apply one_wf; auto; try discriminate; constructor; try lia; constructor.
  - exists (fun i => zq (3 - i)). vm_compute. discriminate.
Qed.

(** ** Examples *)
Definition exFg : list Z * list Z := ([2; 1; 2], [2; 0; 1]).
Lemma exFg_good : goodFullGrid (fst exFg) (snd exFg).
Proof. split; [reflexivity|]. split; [simpl; lia|]. split; repeat constructor; lia. Qed.

(** The grid has 5 x 1 x 4 points; element 13 is (3, 0, 2), with coordinates 3/4, 1/2, 1/2, and levels and indices (2, 3), (1, 1), (1, 1). *)
Example C76_example : fgElements (fst exFg) (snd exFg) = 20 /\ fgVectorIndex (fgSizes (fst exFg) (snd exFg)) 13 = [3; 0; 2] /\
  fgLinearIndex (fgSizes (fst exFg) (snd exFg)) [3; 0; 2] = 13 /\
  map this (fgCoords (fst exFg) (snd exFg) 13) = [3 # 4; 1 # 2; 1 # 2]%Q /\ fgLI (fst exFg) (snd exFg) 13 = [(2, 3); (1, 1); (1, 1)].
Proof. vm_compute. repeat split; reflexivity. Qed.

Definition exFgData : arr := fun i => zq (i * i).
Definition exFgF (v : list Z) : Qc := exFgData (fgLinearIndex [5; 1; 4] v).
(** Inside, beyond the last point of the one-sided dimension, and outside the unit cube. *)
Example C77_example : fgStores (fst exFg) (snd exFg) exFgData exFgF /\
  this (fgEval (fst exFg) (snd exFg) [Q2Qc (5 # 8); Q2Qc (1 # 4); Q2Qc (3 # 8)] exFgData) = (213 # 4)%Q /\
  this (fgEval (fst exFg) (snd exFg) [Q2Qc (5 # 8); Q2Qc (1 # 4); 1%Qc] exFgData) = (913 # 4)%Q /\
  this (interpolant (fst exFg) (snd exFg) exFgF [Q2Qc (5 # 8); Q2Qc (1 # 4); 1%Qc]) = (13 # 4)%Q /\
  fgEval (fst exFg) (snd exFg) [Q2Qc (5 # 8); Q2Qc (9 # 8); 1%Qc] exFgData = 0%Qc.
Proof.
  split; [intros v Hv; reflexivity|]. split; [vm_compute; reflexivity|]. split; [vm_compute; reflexivity|]. split; [vm_compute; reflexivity|].
  apply Qc_is_canon. vm_compute. reflexivity.
Qed.

(** A grid with levels (1, 1), full boundary, gets half of another one with levels (2, 1); its element 4 is the point (1/2, 1/2). *)
Example C78_example : goodFullGrid [1; 1] [2; 2] /\ goodFullGrid [2; 1] [2; 2] /\
  fgEval [2; 1] [2; 2] (fgCoords [1; 1] [2; 2] 4) exFgData = zq 49 /\
  this (fgAdd [1; 1] [2; 2] (fun _ => 1%Qc) [2; 1] [2; 2] exFgData qhalf 4) = (51 # 2)%Q /\
  fgGridEval [2; 1] [2; 2] exFgData [1; 1] (fun _ => 0%Qc) 4 = zq 49.
Proof.
  split; [split; [reflexivity|]; split; [simpl; lia|]; split; repeat constructor; lia|].
  split; [split; [reflexivity|]; split; [simpl; lia|]; split; repeat constructor; lia|].
  split; [apply Qc_is_canon; vm_compute; reflexivity|]. split; [vm_compute; reflexivity|]. apply Qc_is_canon; vm_compute; reflexivity.
Qed.

(** Levels (2, 1), without boundary and with it: 3 x 3 points. *)
Example C79_example : serialCfg (oneProcess [2; 1] [0; 2]) /\
  map (fun i => this (serialAll false [2; 1] [0; 2] exFgData i)) (zrange 0 9) = [(-1 # 2); 1; (7 # 2); (-9 # 2); (-9); (-9 # 2); (23 # 2); 49; (79 # 2)]%Q /\
  map (fun i => this (serialAll true [2; 1] [0; 2] (serialAll false [2; 1] [0; 2] exFgData) i)) (zrange 0 9) = [0; 1; 4; 9; 16; 25; 36; 49; 64]%Q.
Proof.
  split; [apply one_serial; [discriminate|reflexivity| |]; repeat constructor; lia|]. vm_compute. split; reflexivity.
Qed.

Print Assumptions C76_vector_index.
Print Assumptions C76_linear_index.
Print Assumptions C76_coordinates.
Print Assumptions C76_level_index.
Print Assumptions C76_level_index_injective.
Print Assumptions C77_eval_partial.
Print Assumptions C77_inside_partial.
Print Assumptions C77_full_boundary.
Print Assumptions C77_grid_points.
Print Assumptions C77_outside.
Print Assumptions C77_one_point_refuted.
Print Assumptions C77_one_sided_refuted.
Print Assumptions C77_no_boundary_refuted.
Print Assumptions C78_add_partial.
Print Assumptions C78_grid_eval_partial.
Print Assumptions C79_equals_distributed_partial.
Print Assumptions C79_roundtrip_partial.
Print Assumptions C79_one_sided_refuted.
