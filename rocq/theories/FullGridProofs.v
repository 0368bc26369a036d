(** Evaluation and indices of the serial full grid. *)
From Verif Require Import Base TensorModel TensorProofs PartitionModel PartitionProofs DecompModel DecompProofs DofModel DofProofs DofProps Level1dModel
  Level1dProofs SubspaceModel SubspaceProofs Hier1dModel Hier1dProofs HierMassProofs Hier1dProps SparseGridModel
  DistHierModel DistHierProofs DistExchangeProofs DistPoleProofs HierNDModel HierNDProofs HierLinProofs HierNDProps QcTools
  InterpModel InterpProofs InterpProps FullGridModel FullGridHierProofs.
From Coq Require Import QArith Qcanon Lqa.
Open Scope Z_scope.
Ltac Zify.zify_post_hook ::= idtac.

(** ** One dimension *)

(** The weight of point [j] of [n] equidistant points 0..n-1 in the piecewise linear function through them, continued linearly
    beyond the first and the last point. *)
Definition linWeight (n j : Z) (X : Qc) : Qc :=
  if qltb X 0 then (at1 (j =? 0) (1 - X) + at1 (j =? 1) X)%Qc
  else if qltb (zq (n - 1)) X then (at1 (j =? n - 2) (zq (n - 1) - X) + at1 (j =? n - 1) (X - zq (n - 2)))%Qc
  else hat (X - zq j)%Qc.
(** The position of a coordinate in units of the mesh width, relative to the first stored point. *)
Definition gridPos (L b : Z) (x : Qc) : Qc := (x * zq (2 ^ L) - zq (if b =? 0 then 1 else 0))%Qc.
Definition fgWeight (b L j : Z) (x : Qc) : Qc :=
  if 2 ^ L + b - 1 =? 1 then axisWeight b L j x else linWeight (2 ^ L + b - 1) j (gridPos L b x).

Lemma lin_cell : forall n c j X, 2 <= n -> 0 <= c <= n - 2 -> 0 <= j < n ->
  (c = 0 /\ (X < 0)%Qc) \/ (c = n - 2 /\ (zq (n - 2) <= X)%Qc) \/ ((zq c <= X)%Qc /\ (X < zq c + 1)%Qc) ->
  linWeight n j X = (at1 (j =? c) (1 - (X - zq c)) + at1 (j =? c + 1) (X - zq c))%Qc.
Proof.
  intros n c j X Hn Hc Hj HX. unfold linWeight.
  assert (Z0 : (0 <= zq c)%Qc) by (rewrite <- zq_0; apply zq_le; lia).
  assert (Z1 : (zq c + 1 <= zq (n - 1))%Qc) by (rewrite <- zq_1, <- zq_add; apply zq_le; lia).
  assert (Z2 : (zq (n - 1) = zq (n - 2) + 1)%Qc) by (rewrite <- zq_1, <- zq_add; f_equal; lia).
  destruct HX as [[-> HX] | [[-> HX] | [H1 H2]]].
  - destruct (qltb_spec X 0); [|contradiction]. rewrite zq_0. f_equal; f_equal; ring.
  - assert (P : (0 <= X)%Qc) by qlra. destruct (qltb_spec X 0) as [Q|_]; [exfalso; qlra|].
    replace (n - 2 + 1) with (n - 1) by lia. destruct (qltb_spec (zq (n - 1)) X) as [Q|Q].
    + f_equal. f_equal. rewrite Z2. ring.
    + apply Qcnot_lt_le in Q. destruct (Qclt_le_dec X (zq (n - 1))) as [R|R].
      * assert (F : qfloor X = n - 2) by (apply qfloor_unique; auto; rewrite <- Z2; auto). rewrite hat_floor, F.
        replace (n - 2 + 1) with (n - 1) by lia. reflexivity.
      * assert (EX : X = zq (n - 1)) by (now apply Qcle_antisym).
        assert (F : qfloor X = n - 1) by (apply qfloor_unique; [auto|qlra]). rewrite hat_floor, F, EX. unfold at1.
        destruct (Z.eqb_spec j (n - 1)), (Z.eqb_spec j (n - 1 + 1)), (Z.eqb_spec j (n - 2)); try lia; rewrite ?Z2; ring.
  - destruct (qltb_spec X 0) as [Q|_]; [exfalso; qlra|]. destruct (qltb_spec (zq (n - 1)) X) as [Q|_]; [exfalso; qlra|].
    assert (F : qfloor X = c) by (apply qfloor_unique; auto). now rewrite hat_floor, F.
Qed.

Lemma qs_at1 : forall n c (G : Z -> Qc) u w, 0 <= c <= n - 2 ->
  qsum (map (fun j => (at1 (j =? c) u + at1 (j =? c + 1) w) * G j)%Qc (zrange 0 n)) = (u * G c + w * G (c + 1)%Z)%Qc.
Proof.
  intros n c G u w Hc. rewrite (qs_ext _ (fun j => at1 (j =? c) u * G j + at1 (j =? c + 1) w * G j)%Qc) by (intros; ring).
  rewrite qs_plus, !qs_point by lia. unfold at1 at 1 2.
  destruct (Z.leb_spec 0 c), (Z.ltb_spec c n), (Z.leb_spec 0 (c + 1)), (Z.ltb_spec (c + 1) n); try lia. reflexivity.
Qed.

Lemma fgPoints_pow : forall L b, 1 <= L <= 28 -> fgPoints L b = 2 ^ L + b - 1.
Proof. intros. unfold fgPoints. rewrite table_pow by lia. reflexivity. Qed.

Lemma cell_spec : forall L b x, 1 <= L <= 28 -> 0 <= b <= 2 -> 2 <= 2 ^ L + b - 1 -> (0 <= x)%Qc -> (x <= 1)%Qc ->
  let n := 2 ^ L + b - 1 in let X := gridPos L b x in
  0 <= fst (fgCell L b x) <= n - 2 /\ snd (fgCell L b x) = (X - zq (fst (fgCell L b x)))%Qc /\
  ((fst (fgCell L b x) = 0 /\ (X < 0)%Qc) \/ (fst (fgCell L b x) = n - 2 /\ (zq (n - 2) <= X)%Qc) \/
   ((zq (fst (fgCell L b x)) <= X)%Qc /\ (X < zq (fst (fgCell L b x)) + 1)%Qc)).
Proof.
  intros L b x HL Hb Hn X0 X1 n X. unfold fgCell. rewrite fgPoints_pow, table_pow by lia. fold n. unfold X, gridPos. change (2 <= n) in Hn.
  set (Y := (x * zq (2 ^ L))%Qc). assert (P2 : 2 <= 2 ^ L) by (apply pow2_ge; lia).
  assert (Y0 : (0 <= Y)%Qc).
  { unfold Y. rewrite <- (Qcmult_0_l (zq (2 ^ L))). apply Qcmult_le_compat_r; auto. rewrite <- zq_0. apply zq_le. lia. }
  pose proof (qfloor_le Y) as F1. pose proof (qfloor_lt Y) as F2. set (f := qfloor Y) in *.
  assert (F0 : 0 <= f). { assert (zq (-1) < zq f)%Qc as Q. { change (-1) with (- (1)). rewrite zq_opp, zq_1. qlra. } apply zq_lt_inv in Q. lia. }
  clearbody Y. destruct (Z.gtb_spec b 0) as [Hb0|Hb0].
  - destruct (Z.eqb_spec b 0); [lia|]. rewrite zq_0. destruct (Z.ltb_spec f 0); [lia|]. cbv zeta. clearbody n. cbn [fst snd].
    rewrite Z.geb_leb. destruct (Z.leb_spec (n - 1) f) as [Q|Q].
    + split; [lia|]. split; [ring|]. right. left. split; auto.
      assert (zq (n - 2) <= zq f)%Qc by (apply zq_le; lia). qlra.
    + split; [lia|]. split; [ring|]. right. right. split; qlra.
  - assert (b = 0) as -> by lia. change (if 0 =? 0 then 1 else 0) with 1. rewrite zq_1. destruct (Z.ltb_spec f 0); [lia|]. cbv zeta.
    assert (N3 : 3 <= n). { unfold n in Hn |- *. assert (2 <= L) by (destruct (Z.eq_dec L 1) as [->|]; [cbn in Hn; lia|lia]). pose proof (Z.pow_le_mono_r 2 2 L ltac:(lia) ltac:(lia)). change (2 ^ 2) with 4 in *. lia. }
    clearbody n. rewrite Z.geb_leb.
    set (a := if n <=? f then n else f).
    assert (Ha : a = Z.min f n) by (unfold a; destruct (Z.leb_spec n f); lia). clearbody a.
    destruct (Z.leb_spec a 0) as [Q|Q].
    + assert (f = 0) as Ef by lia. cbn [fst snd]. change (1 - 1 <? 0) with false. cbn iota. change (1 - 1) with 0. rewrite zq_0.
      split; [lia|]. split; [ring|]. left. split; auto. rewrite Ef, zq_0 in F2. qlra.
    + rewrite Z.geb_leb. destruct (Z.leb_spec (n - 1) a) as [R|R].
      * cbn [fst snd]. destruct (Z.ltb_spec (n - 1 - 1) 0); [lia|]. replace (n - 1 - 1) with (n - 2) by lia.
        assert (E : zq (n - 1) = (zq (n - 2) + 1)%Qc) by (rewrite <- zq_1, <- zq_add; f_equal; lia). split; [lia|]. split; [rewrite E; ring|].
        right. left. split; auto. assert (zq (n - 1) <= zq f)%Qc by (apply zq_le; lia). qlra.
      * assert (a = f) as -> by lia. cbn [fst snd]. destruct (Z.ltb_spec (f - 1) 0); [lia|]. rewrite zq_sub, zq_1.
        split; [lia|]. split; [ring|]. right. right. split; qlra.
Qed.

(** ** The corners of the cell *)
Section Corners.
Variable data : arr.
Definition cornerSum (axes : list (Z * Z * Qc)) (base : Qc) (i : Z) : Qc :=
  qsum (map (fun bits => let (w, k) := fgCorner axes bits base i in (w * data k)%Qc) (zrange 0 (2 ^ Z.of_nat (length axes)))).

(** The sum over all points, the axes from the last to the first. *)
Fixpoint weightSum (axes : list (Z * Z * Qc)) (i : Z) : Qc :=
  match axes with
  | [] => data i
  | (L, b, x) :: axes' => qsum (map (fun j => fgWeight b L j x * weightSum axes' (i * (2 ^ L + b - 1) + j))%Qc (zrange 0 (2 ^ L + b - 1)))
  end.

Definition okAxis (a : Z * Z * Qc) : Prop := let '(L, b, x) := a in
  1 <= L <= 28 /\ 0 <= b <= 2 /\ (0 <= x)%Qc /\ (x <= 1)%Qc.
Definition lowAxis (a : Z * Z * Qc) : Prop := let '(L, b, x) := a in 2 ^ L + b - 1 = 1 -> (x <= qhalf)%Qc.

Lemma corner_step : forall L b x axes base i, okAxis (L, b, x) ->
  (forall base i, cornerSum axes base i = (base * weightSum axes i)%Qc) -> lowAxis (L, b, x) \/ base = 1%Qc ->
  cornerSum ((L, b, x) :: axes) base i = (base * weightSum ((L, b, x) :: axes) i)%Qc.
Proof.
  intros L b x axes base i (HL & Hb & X0 & X1) IH HB.
  assert (P2 : 2 <= 2 ^ L) by (apply pow2_ge; lia).
  unfold cornerSum. cbn [length]. rewrite Nat2Z.inj_succ, Z.pow_succ_r by lia. rewrite qs_double by (apply Z.pow_nonneg; lia).
  assert (G : forall bits vv, vv = 0 \/ vv = 1 -> fgCorner ((L, b, x) :: axes) (2 * bits + vv) base i
    = fgCorner axes bits (if 2 ^ L + b - 1 =? 1 then (if qltb qhalf x then base - x else base * x)%Qc else (base * (if vv =? 0 then 1 - snd (fgCell L b x) else snd (fgCell L b x)))%Qc)
                         (i * (2 ^ L + b - 1) + fst (fgCell L b x) + (if 2 ^ L + b - 1 =? 1 then 0 else vv))).
  { intros bits vv Hvv. cbn [fgCorner]. rewrite fgPoints_pow by lia. destruct (fgCell L b x) as [a t]. cbn [fst snd].
    assert (E1 : Z.land (2 * bits + vv) 1 = vv).
    { rewrite (Z.land_ones _ 1) by lia. change (2 ^ 1) with 2. rewrite Z.add_comm, Z.mul_comm, Z.mod_add by lia. apply Z.mod_small. lia. }
    assert (E2 : Z.shiftr (2 * bits + vv) 1 = bits).
    { rewrite Z.shiftr_div_pow2 by lia. change (2 ^ 1) with 2. rewrite Z.add_comm, Z.mul_comm, Z.div_add by lia. rewrite Z.div_small by lia. lia. }
    rewrite E1, E2. set (n := 2 ^ L + b - 1). assert (Hn : 1 <= n) by (unfold n; lia). clearbody n.
    rewrite Z.gtb_ltb. destruct (Z.ltb_spec 1 n), (Z.eqb_spec n 1); try lia.
    - reflexivity.
    - f_equal. destruct (qltb qhalf x); ring. }
  pose (B := fun vv : Z => if 2 ^ L + b - 1 =? 1 then (if qltb qhalf x then base - x else base * x)%Qc else (base * (if vv =? 0 then 1 - snd (fgCell L b x) else snd (fgCell L b x)))%Qc).
  pose (I := fun vv : Z => i * (2 ^ L + b - 1) + fst (fgCell L b x) + (if 2 ^ L + b - 1 =? 1 then 0 else vv)).
  transitivity (Qcplus (cornerSum axes (B 0) (I 0)) (cornerSum axes (B 1) (I 1))).
  { unfold cornerSum. rewrite <- qs_plus. apply qs_ext. intros t _. f_equal.
    - rewrite <- (Z.add_0_r (2 * t)), G by auto. reflexivity.
    - rewrite G by auto. reflexivity. }
  unfold B, I. clear B I G.
  rewrite !IH. cbn [weightSum]. unfold fgWeight. destruct (Z.eqb_spec (2 ^ L + b - 1) 1) as [N1|N1].
  - assert (b = 0 /\ L = 1) as [-> ->].
    { assert (b = 0) by lia. split; auto. destruct (Z.eq_dec L 1); auto. pose proof (Z.pow_le_mono_r 2 2 L ltac:(lia) ltac:(lia)). change (2 ^ 2) with 4 in *. lia. }
    change (2 ^ 1 + 0 - 1) with 1. change (zrange 0 1) with [0]. change (qsum (map ?f [0])) with (Qcplus (f 0) 0%Qc). cbv beta.
    assert (FC : fst (fgCell 1 0 x) = 0).
    { unfold fgCell. change (fgPoints 1 0) with 1. change (0 >? 0) with false. cbv zeta iota. set (f := qfloor _). clearbody f.
      destruct (Z.ltb_spec f 0); [reflexivity|]. rewrite Z.geb_leb. destruct (Z.leb_spec 1 f); [reflexivity|].
      destruct (Z.leb_spec f 0); [reflexivity|lia]. }
    rewrite FC, !Z.add_0_r. unfold axisWeight. change (0 =? 0) with true. change (0 =? 1) with false. cbn [andb]. change (2 ^ 1) with 2. change (0 + 1) with 1. rewrite zq_1.
    assert (Z2 : zq 2 = (1 + 1)%Qc) by (change 2 with (1 + 1); rewrite zq_add, zq_1; reflexivity).
    assert (HH : (qhalf + qhalf = 1)%Qc) by (apply Qc_is_canon; reflexivity).
    unfold hat. rewrite Z2. destruct (qltb_spec qhalf x) as [Q|Q].
    + destruct HB as [HB|HB]; [specialize (HB eq_refl); exfalso; qlra|]. subst base.
      rewrite (qabs_pos (x * (1 + 1) - 1)) by qlra. destruct (qltb_spec (x * (1 + 1) - 1) 1) as [R|R]; [ring|].
      assert (x = 1%Qc) as -> by (apply Qcle_antisym; auto; apply Qcnot_lt_le in R; qlra). ring.
    + apply Qcnot_lt_le in Q. rewrite (qabs_neg (x * (1 + 1) - 1)) by qlra.
      destruct (qltb_spec (- (x * (1 + 1) - 1)) 1) as [R|R]; [ring|].
      assert (x = 0%Qc) as -> by (apply Qcle_antisym; auto; apply Qcnot_lt_le in R; qlra). ring.
  - assert (N2 : 2 <= 2 ^ L + b - 1) by lia. pose proof (cell_spec L b x HL Hb N2 X0 X1) as (C1 & C2 & C3). cbv zeta in C1, C2, C3.
    set (n := 2 ^ L + b - 1) in *. set (c := fst (fgCell L b x)) in *. set (X := gridPos L b x) in *.
    rewrite (qs_ext _ (fun j => (at1 (j =? c) (1 - (X - zq c)) + at1 (j =? c + 1) (X - zq c)) * weightSum axes (i * n + j))%Qc).
    2:{ intros j Hj. apply zrange_In in Hj. rewrite (lin_cell n c j X) by (auto; lia). reflexivity. }
    rewrite (qs_at1 n c (fun j => weightSum axes (i * n + j))) by auto. rewrite C2. change (0 =? 0) with true. change (1 =? 0) with false. cbv iota.
    rewrite Z.add_0_r, (Z.add_assoc (i * n) c 1). ring.
Qed.

Lemma corner_sum_low : forall axes, Forall okAxis axes -> Forall lowAxis axes -> forall base i, cornerSum axes base i = (base * weightSum axes i)%Qc.
Proof.
  induction axes as [|[[L b] x] axes IH]; intros H1 H2 base i.
  - unfold cornerSum. simpl. ring.
  - inversion_clear H1. inversion_clear H2. apply corner_step; auto.
Qed.
Lemma corner_sum : forall axes, Forall okAxis axes -> Forall lowAxis (tl axes) -> forall i, cornerSum axes 1 i = weightSum axes i.
Proof.
  intros [|[[L b] x] axes] H1 H2 i.
  - unfold cornerSum. simpl. ring.
  - inversion_clear H1. cbn [tl] in H2. rewrite corner_step; auto; [ring|]. now apply corner_sum_low.
Qed.
End Corners.

(** ** The sum over all points *)
Fixpoint fgPointWeight (bs levels v : list Z) (xs : list Qc) : Qc :=
  match bs, levels, v, xs with
  | b :: bs', L :: levels', j :: v', x :: xs' => (fgWeight b L j x * fgPointWeight bs' levels' v' xs')%Qc
  | _, _, _, _ => 1%Qc
  end.

Lemma weight_box : forall data levels bs xs rest i, length bs = length levels -> length xs = length levels -> Forall (fun l => 1 <= l <= 28) levels ->
  weightSum data (rev (combine (combine levels bs) xs) ++ rest) i
  = qsum (map (fun v => fgPointWeight bs levels v xs * weightSum data rest (i * zprod (globalSizes levels bs) + lin (globalSizes levels bs) v))%Qc
              (boxPoints (repeat 0 (length levels)) (globalSizes levels bs))).
Proof.
  intros data. induction levels as [|L levels IH]; intros [|b bs] [|x xs] rest i; simpl length; intros LB LX HL; try lia.
  - change (boxPoints (repeat 0 0) (globalSizes [] [])) with [@nil Z]. cbn [combine rev app map fgPointWeight]. change (qsum [?q]) with (q + 0)%Qc.
    change (globalSizes [] []) with (@nil Z). change (zprod []) with 1. cbn [lin]. rewrite Z.mul_1_r, Z.add_0_r. ring.
  - inversion_clear HL as [|? ? HL1 HL2]. cbn [combine rev]. rewrite <- app_assoc. cbn [app]. rewrite IH by (auto; lia).
    unfold globalSizes, boxPoints. cbn [map2 repeat cart]. fold (globalSizes levels bs). rewrite qs_flat_map.
    fold (boxPoints (repeat 0 (length levels)) (globalSizes levels bs)).
    set (sizes := globalSizes levels bs). set (box := boxPoints (repeat 0 (length levels)) sizes).
    assert (EN : match numDofNodal1 L b with Some n => n | None => 0 end = 2 ^ L + b - 1) by (unfold numDofNodal1; destruct (Z.gtb_spec L 0); [reflexivity|lia]). rewrite EN. set (n := 2 ^ L + b - 1).
    rewrite (qs_ext _ (fun v => qsum (map (fun j => fgWeight b L j x * fgPointWeight bs levels v xs * weightSum data rest (i * zprod (n :: sizes) + lin (n :: sizes) (j :: v)))%Qc (zrange 0 n)))).
    2:{ intros v _. cbn [weightSum]. fold n. rewrite <- qs_scale. apply qs_ext. intros j _. change (zprod (n :: sizes)) with (n * zprod sizes). cbn [lin].
        replace (i * (n * zprod sizes) + (j + n * lin sizes v)) with ((i * zprod sizes + lin sizes v) * n + j) by ring. ring. }
    rewrite qs_swap. apply qs_ext. intros j _. rewrite map_map. apply qs_ext. intros v _. reflexivity.
Qed.

Lemma pow_dim : forall d, (d <= 28)%nat -> powerOfTwo (Z.of_nat d) = 2 ^ Z.of_nat d.
Proof. intros. apply table_pow. lia. Qed.

Lemma combine_okAxis : forall levels bs xs, length bs = length levels -> length xs = length levels ->
  Forall (fun l => 1 <= l <= 28) levels -> Forall (fun b => 0 <= b <= 2) bs -> Forall (fun x => (0 <= x)%Qc /\ (x <= 1)%Qc) xs ->
  Forall okAxis (combine (combine levels bs) xs).
Proof.
  induction levels as [|L levels IH]; intros [|b bs] [|x xs] LB LX HL HB HX; simpl in *; try lia; [constructor|].
  inversion_clear HL. inversion_clear HB. inversion_clear HX. constructor; [|apply IH; auto; lia]. unfold okAxis. tauto.
Qed.

Lemma removelast_lowAxis : forall levels bs xs, length bs = length levels -> length xs = length levels ->
  (forall k, (S k < length levels)%nat -> nth k levels 0 = 1 -> nth k bs 0 = 0 -> (nth k xs 0 <= qhalf)%Qc) ->
  Forall (fun l => 1 <= l <= 28) levels -> Forall (fun b => 0 <= b <= 2) bs ->
  Forall lowAxis (removelast (combine (combine levels bs) xs)).
Proof.
  induction levels as [|L levels IH]; intros [|b bs] [|x xs] LB LX H HL HB; simpl in LB, LX; try lia; [constructor|].
  inversion_clear HL. inversion_clear HB. cbn [combine removelast]. destruct (combine (combine levels bs) xs) eqn:E; [constructor|].
  assert (0 < length levels)%nat.
  { destruct levels; simpl in *; [|lia]. destruct bs; simpl in *; [discriminate|lia]. }
  rewrite <- E. constructor.
  - unfold lowAxis. intros N1. apply (H 0%nat); cbn [nth length]; [lia| |]; pose proof (pow2_ge L ltac:(lia)); [|lia].
    destruct (Z.eq_dec L 1); auto. pose proof (Z.pow_le_mono_r 2 2 L ltac:(lia) ltac:(lia)). change (2 ^ 2) with 4 in *. lia.
  - apply IH; auto; try lia. intros k Hk. apply (H (S k)). simpl. lia.
Qed.

Lemma tl_rev : forall {A} (l : list A), tl (rev l) = rev (removelast l).
Proof.
  intros A l. destruct l as [|x l'] eqn:E; auto. rewrite <- E. assert (NE : l <> []) by (subst; discriminate).
  rewrite (app_removelast_last x NE) at 1. rewrite rev_app_distr. reflexivity.
Qed.

Lemma fold_first : forall (f : Z -> Qc) m init, 0 < m ->
  fold_left (fun ret ii => if ii =? 0 then f ii else (ret + f ii)%Qc) (zrange 0 m) init = qsum (map f (zrange 0 m)).
Proof.
  intros f m init Hm. unfold zrange. rewrite Z.sub_0_r. destruct (Z.to_nat m) as [|n] eqn:E; [lia|]. cbn [zseq fold_left map]. change (0 =? 0) with true. cbv iota.
  rewrite (fold_ext _ (fun s ii => (s + f ii)%Qc)).
  - rewrite qs_fold. reflexivity.
  - intros s ii Hi. destruct (Z.eqb_spec ii 0) as [->|]; auto. exfalso. assert (In 0 (zrange 1 (1 + Z.of_nat n))) as X.
    { unfold zrange. replace (Z.to_nat (1 + Z.of_nat n - 1)) with n by lia. exact Hi. }
    apply zrange_In in X. lia.
Qed.

Lemma fgEval_box : forall levels bs xs data, length bs = length levels -> length xs = length levels -> (length levels <= 28)%nat ->
  Forall (fun l => 1 <= l <= 28) levels -> Forall (fun b => 0 <= b <= 2) bs -> Forall (fun x => (0 <= x)%Qc /\ (x <= 1)%Qc) xs ->
  (forall k, (S k < length levels)%nat -> nth k levels 0 = 1 -> nth k bs 0 = 0 -> (nth k xs 0 <= qhalf)%Qc) ->
  fgEval levels bs xs data = qsum (map (fun v => fgPointWeight bs levels v xs * data (lin (globalSizes levels bs) v))%Qc
                                      (boxPoints (repeat 0 (length levels)) (globalSizes levels bs))).
Proof.
  intros levels bs xs data LB LX HD HL HB HX HLow. unfold fgEval.
  assert (EX : existsb (fun x => qltb x 0 || qltb 1 x) xs = false).
  { clear - HX. induction HX as [|x xs [H1 H2] HX IH]; auto. cbn [existsb]. rewrite IH.
    destruct (qltb_spec x 0); [exfalso; qlra|]. destruct (qltb_spec 1 x); [exfalso; qlra|]. reflexivity. }
  rewrite EX, pow_dim by auto. set (axes := combine (combine levels bs) xs).
  assert (LA : length axes = length levels) by (unfold axes; rewrite !combine_length; lia).
  pose proof (fold_first (fun ii => let (w, i) := fgCorner (rev axes) ii 1 0 in (w * data i)%Qc) (2 ^ Z.of_nat (length levels)) (data 0) ltac:(apply Z.pow_pos_nonneg; lia)) as FF.
  etransitivity; [|etransitivity; [exact FF|]].
  - apply fold_ext. intros s ii _. destruct (fgCorner (rev axes) ii 1 0) as [w i]. reflexivity.
  - transitivity (cornerSum data (rev axes) 1 0); [unfold cornerSum; rewrite rev_length, LA; reflexivity|].
    rewrite corner_sum.
    + rewrite <- (app_nil_r (rev axes)). unfold axes. rewrite weight_box by auto. apply qs_ext. intros v _. reflexivity.
    + apply Forall_rev. now apply combine_okAxis.
    + rewrite tl_rev. apply Forall_rev. apply removelast_lowAxis; auto.
Qed.

(** ** Indices *)
Lemma fgVectorIndex_eq : forall sizes i, fgVectorIndex sizes i = getVectorIndex sizes i.
Proof.
  intros sizes i. unfold fgVectorIndex, getVectorIndex, localOffsets. generalize (rev (offsetsFrom 1 sizes)) (@nil Z). intros l. revert i.
  induction l as [|o l IH]; intros i acc; [reflexivity|]. cbn [fold_left getVectorIndexLoop fst snd]. apply IH.
Qed.

Lemma fold_rev_sum : forall l s, fold_left (fun tmp (ov : Z * Z) => tmp + fst ov * snd ov) (rev l) s = s + fold_right (fun ov t => fst ov * snd ov + t) 0 l.
Proof.
  induction l as [|[o v] l IH]; intros s; cbn [rev fold_right]; [simpl; lia|]. rewrite fold_left_app, IH. cbn [fold_left fst snd]. lia.
Qed.
Lemma fgLinearIndex_eq : forall sizes v, length v = length sizes -> fgLinearIndex sizes v = sequentialIndex sizes v.
Proof.
  intros sizes v LV. unfold fgLinearIndex, sequentialIndex, localOffsets. rewrite fold_rev_sum. generalize 1. revert v LV.
  induction sizes as [|n sizes IH]; intros [|x v] LV a; simpl in LV; try lia; auto. cbn [offsetsFrom combine fold_right fst snd innerProduct].
  rewrite ip_acc. rewrite <- IH by lia. ring.
Qed.

Lemma fgCoords_nth : forall levels bs i k, length bs = length levels -> Forall (fun l => 1 <= l <= 28) levels -> Forall (fun b => 0 <= b <= 2) bs ->
  0 <= i -> (k < length levels)%nat ->
  nth k (fgCoords levels bs i) 0%Qc = (zq (nth k (unlin (globalSizes levels bs) i) 0%Z + (if nth k bs 0%Z =? 0 then 1 else 0))%Z
                                     * Q2Qc (nth (Z.to_nat (nth k levels 0%Z)) oneOverPowOfTwoTable 0%Q))%Qc.
Proof.
  induction levels as [|L levels IH]; intros [|b bs] i k LB HL HB Hi Hk; simpl in LB, Hk; try lia.
  inversion_clear HL as [|? ? HL1 HL2]. inversion_clear HB as [|? ? HB1 HB2]. pose proof (pow2_ge L ltac:(lia)) as P2.
  assert (EN : match numDofNodal1 L b with Some n => n | None => 0 end = 2 ^ L + b - 1) by (unfold numDofNodal1; destruct (Z.gtb_spec L 0); [reflexivity|lia]).
  unfold globalSizes. cbn [map2 unlin]. fold (globalSizes levels bs). rewrite EN. cbn [fgCoords]. rewrite fgPoints_pow by lia.
  set (n := 2 ^ L + b - 1) in *. assert (0 < n) by (unfold n; lia). clearbody n.
  rewrite Z.rem_mod_nonneg, Z.quot_div_nonneg by lia. destruct k as [|k]; cbn [nth].
  - f_equal. f_equal. f_equal. destruct (Z.gtb_spec b 0), (Z.eqb_spec b 0); lia.
  - apply IH; auto; try lia. apply Z.div_pos; lia.
Qed.

Lemma fgCoords_length : forall levels bs i, length bs = length levels -> length (fgCoords levels bs i) = length levels.
Proof. induction levels as [|L levels IH]; intros [|b bs] i LB; simpl in *; try lia. rewrite IH; lia. Qed.

Lemma one_over : forall L, 0 <= L <= 28 -> (Q2Qc (nth (Z.to_nat L) oneOverPowOfTwoTable 0%Q) * zq (2 ^ L))%Qc = 1%Qc.
Proof.
  intros L HL. apply Qc_is_canon. rewrite this_mult, this_Q2Qc, this_zq, this_1. apply (proj2 (C54_power_table_partial L HL)).
Qed.

Lemma fgSizes_pos : forall levels bs, length bs = length levels -> Forall (fun l => 1 <= l <= 28) levels -> Forall (fun b => 0 <= b <= 2) bs ->
  posExt (globalSizes levels bs).
Proof.
  induction levels as [|L levels IH]; intros [|b bs] LB HL HB; simpl in LB; try lia; [constructor|].
  inversion_clear HL. inversion_clear HB. unfold globalSizes. cbn [map2]. constructor; [|apply IH; auto; lia].
  unfold numDofNodal1. destruct (Z.gtb_spec L 0); [|lia]. pose proof (pow2_ge L ltac:(lia)). unfold powerOfTwoByBitshift in *. rewrite ?Z.shiftl_1_l. lia.
Qed.

Lemma coord_scaled : forall levels bs i k, length bs = length levels -> Forall (fun l => 1 <= l <= 28) levels -> Forall (fun b => 0 <= b <= 2) bs ->
  0 <= i -> (k < length levels)%nat ->
  (nth k (fgCoords levels bs i) 0 * zq (2 ^ nth k levels 0%Z)%Z)%Qc = zq (nth k (unlin (globalSizes levels bs) i) 0 + (if nth k bs 0 =? 0 then 1 else 0)) /\
  0 <= nth k (unlin (globalSizes levels bs) i) 0 < 2 ^ nth k levels 0 + nth k bs 0 - 1.
Proof.
  intros levels bs i k LB HL HB Hi Hk. pose proof (Forall_nthZ _ levels k HL Hk) as L1. cbv beta in L1. split.
  - rewrite fgCoords_nth by auto. rewrite <- Qcmult_assoc, one_over by lia. ring.
  - pose proof (unlin_inBox _ i (fgSizes_pos levels bs LB HL HB)) as IB. apply inBox_nth in IB as [A B].
    specialize (B k ltac:(rewrite globalSizes_length; auto)). rewrite globalSizes_nth in B by (auto; lia). exact B.
Qed.

Lemma scaled_range : forall x N, 0 < N -> (0 <= x * zq N)%Qc -> (x * zq N <= zq N)%Qc -> (0 <= x)%Qc /\ (x <= 1)%Qc.
Proof.
  intros x N HN H1 H2. assert (P : (0 < zq N)%Qc) by (rewrite <- zq_0; apply zq_lt; lia). split; apply Qcnot_lt_le; intros X.
  - apply (Qcmult_lt_compat_r _ _ (zq N) P) in X. rewrite Qcmult_0_l in X. qlra.
  - apply (Qcmult_lt_compat_r _ _ (zq N) P) in X. rewrite Qcmult_1_l in X. qlra.
Qed.

Lemma coords_unit : forall levels bs i, length bs = length levels -> Forall (fun l => 1 <= l <= 28) levels -> Forall (fun b => 0 <= b <= 2) bs ->
  0 <= i -> Forall (fun x => (0 <= x)%Qc /\ (x <= 1)%Qc) (fgCoords levels bs i).
Proof.
  intros levels bs i LB HL HB Hi. apply Forall_forall. intros x Hx. apply (In_nth _ _ 0%Qc) in Hx as (k & Hk & <-).
  rewrite fgCoords_length in Hk by auto. pose proof (Forall_nthZ _ levels k HL Hk) as L1. pose proof (Forall_nthZ _ bs k HB ltac:(lia)) as B1. cbv beta in L1, B1.
  destruct (coord_scaled levels bs i k LB HL HB Hi Hk) as [E R]. pose proof (pow2_ge (nth k levels 0) ltac:(lia)) as P2.
  apply (scaled_range _ (2 ^ nth k levels 0) ltac:(lia)); rewrite E.
  - rewrite <- zq_0. apply zq_le. destruct (nth k bs 0 =? 0); lia.
  - apply zq_le. destruct (Z.eqb_spec (nth k bs 0) 0); lia.
Qed.

(** ** Weights at the stored points and inside their hull *)
Definition inHull (L b : Z) (x : Qc) : Prop := b = 2 \/ (b = 1 /\ (x * zq (2 ^ L) <= zq (2 ^ L - 1))%Qc) \/
  (b = 0 /\ (L = 1 \/ ((1 <= x * zq (2 ^ L))%Qc /\ (x * zq (2 ^ L) <= zq (2 ^ L - 1))%Qc))).

Lemma hat_far : forall X m, (X <= zq m - 1)%Qc -> hat (X - zq m)%Qc = 0%Qc.
Proof. intros X m H. unfold hat. rewrite qabs_neg by qlra. destruct (qltb_spec (- (X - zq m)) 1); auto. exfalso. qlra. Qed.

Lemma hull_weight : forall L b j x, 1 <= L <= 28 -> 0 <= b <= 2 -> (0 <= x)%Qc -> (x <= 1)%Qc -> inHull L b x ->
  fgWeight b L j x = axisWeight b L j x.
Proof.
  intros L b j x HL Hb X0 X1 HH. unfold fgWeight. destruct (Z.eqb_spec (2 ^ L + b - 1) 1) as [|N1]; auto.
  pose proof (pow2_ge L ltac:(lia)) as P2. unfold inHull in HH. unfold axisWeight, linWeight, gridPos. set (N := 2 ^ L) in *.
  assert (Y0 : (0 <= x * zq N)%Qc).
  { rewrite <- (Qcmult_0_l (zq N)). apply Qcmult_le_compat_r; auto. rewrite <- zq_0. apply zq_le. lia. }
  assert (Y1 : (x * zq N <= zq N)%Qc).
  { rewrite <- (Qcmult_1_l (zq N)) at 2. apply Qcmult_le_compat_r; auto. rewrite <- zq_0. apply zq_le. lia. }
  set (Y := (x * zq N)%Qc) in *. clearbody Y. assert (NL : L = 1 -> N = 2) by (intros ->; reflexivity). clearbody N. destruct HH as [-> | [[-> H1] | [-> [-> | [H1 H2]]]]].
  - change (2 =? 0) with false. change (2 =? 1) with false. cbn [andb]. cbv iota. rewrite zq_0, Z.add_0_r. replace (Y - 0)%Qc with Y by ring.
    destruct (qltb_spec Y 0); [exfalso; qlra|]. replace (N + 2 - 1 - 1) with N by lia. destruct (qltb_spec (zq N) Y); [exfalso; qlra|]. ring.
  - change (1 =? 0) with false. change (1 =? 1) with true. cbn [andb]. cbv iota. rewrite zq_0, Z.add_0_r. replace (Y - 0)%Qc with Y by ring.
    destruct (qltb_spec Y 0); [exfalso; qlra|]. replace (N + 1 - 1 - 1) with (N - 1) by lia. destruct (qltb_spec (zq (N - 1)) Y); [exfalso; qlra|].
    rewrite zq_sub, zq_1 in H1. rewrite (hat_far Y N) by auto. destruct (j =? 0); ring.
  - exfalso. specialize (NL eq_refl). lia.
  - change (0 =? 0) with true. change (0 =? 1) with false. cbn [andb]. cbv iota. rewrite zq_1.
    destruct (qltb_spec (Y - 1) 0); [exfalso; qlra|]. replace (N + 0 - 1 - 1) with (N - 1 - 1) by lia. rewrite zq_sub, zq_1.
    destruct (qltb_spec (zq (N - 1) - 1) (Y - 1)); [exfalso; qlra|]. rewrite zq_add, zq_1. replace (Y - 1 - zq j)%Qc with (Y - (zq j + 1))%Qc by ring. ring.
Qed.

Lemma hull_pointWeight : forall levels bs v xs, length bs = length levels -> length xs = length levels ->
  Forall (fun l => 1 <= l <= 28) levels -> Forall (fun b => 0 <= b <= 2) bs -> Forall (fun x => (0 <= x)%Qc /\ (x <= 1)%Qc) xs ->
  (forall k, (k < length levels)%nat -> inHull (nth k levels 0) (nth k bs 0) (nth k xs 0%Qc)) ->
  fgPointWeight bs levels v xs = pointWeight bs levels v xs.
Proof.
  induction levels as [|L levels IH]; intros [|b bs] v [|x xs] LB LX HL HB HX HH; simpl in LB, LX; try lia; [destruct v; reflexivity|].
  inversion_clear HL. inversion_clear HB. inversion_clear HX as [|? ? HX1 HX2]. destruct v as [|j v]; [reflexivity|]. cbn [fgPointWeight pointWeight].
  rewrite IH; auto; try lia.
  - rewrite hull_weight; try tauto. apply (HH 0%nat). simpl. lia.
  - intros k Hk. apply (HH (S k)). simpl. lia.
Qed.

(** ** Level and index of a point *)
Lemma halve_spec : forall fuel i l, 0 < i -> i <= Z.of_nat fuel ->
  let (i', l') := halve fuel i l in 0 < i' /\ Z.odd i' = true /\ l' <= l /\ i = i' * 2 ^ (l - l').
Proof.
  induction fuel as [|fuel IH]; intros i l H1 H2; [lia|]. cbn [halve]. rewrite Z.rem_mod_nonneg by lia.
  pose proof (Z.div_mod i 2 ltac:(lia)) as DM. pose proof (Z.mod_pos_bound i 2 ltac:(lia)) as MB. destruct (Z.eqb_spec (i mod 2) 0) as [E|E].
  - rewrite Z.quot_div_nonneg by lia. specialize (IH (i / 2) (l - 1) ltac:(lia) ltac:(lia)). destruct (halve fuel (i / 2) (l - 1)) as [i' l'].
    destruct IH as (A & B & C & D). repeat split; auto; try lia. rewrite DM, E, Z.add_0_r, D at 1. replace (l - l') with (Z.succ (l - 1 - l')) by lia.
    rewrite Z.pow_succ_r by lia. ring.
  - repeat split; auto; try lia.
    + rewrite Zmod_odd in E. destruct (Z.odd i); auto; lia.
    + rewrite Z.sub_diag. change (2 ^ 0) with 1. lia.
Qed.

Lemma fgLI1_spec : forall L i, 0 <= L -> 0 <= i <= 2 ^ L ->
  let (l, j) := fgLI1 L i in 0 <= l <= L /\ i = j * 2 ^ (L - l) /\ (Z.odd j = true \/ (l = 0 /\ j = 0)) /\ (i = 0 -> l = 0).
Proof.
  intros L i HL Hi. unfold fgLI1. destruct (Z.eqb_spec i 0) as [->|N]; cbn [negb].
  - repeat split; lia.
  - pose proof (halve_spec (Z.to_nat i) i L ltac:(lia) ltac:(lia)) as H. destruct (halve (Z.to_nat i) i L) as [j l]. destruct H as (A & B & C & D).
    assert (0 <= l). { destruct (Z_le_dec 0 l); auto. exfalso. assert (2 ^ (L + 1) <= 2 ^ (L - l)) as P by (apply Z.pow_le_mono_r; lia).
      rewrite Z.pow_add_r in P by lia. change (2 ^ 1) with 2 in P. assert (0 < 2 ^ L) by (apply Z.pow_pos_nonneg; lia). nia. }
    repeat split; auto; lia.
Qed.

Lemma fgLI_nth : forall levels bs i k, length bs = length levels -> Forall (fun l => 1 <= l <= 28) levels -> Forall (fun b => 0 <= b <= 2) bs ->
  0 <= i -> (k < length levels)%nat ->
  nth k (fgLI levels bs i) (0, 0) = fgLI1 (nth k levels 0) (nth k (unlin (globalSizes levels bs) i) 0 + (if nth k bs 0 =? 0 then 1 else 0)).
Proof.
  induction levels as [|L levels IH]; intros [|b bs] i k LB HL HB Hi Hk; simpl in LB, Hk; try lia.
  inversion_clear HL as [|? ? HL1 HL2]. inversion_clear HB as [|? ? HB1 HB2]. pose proof (pow2_ge L ltac:(lia)) as P2.
  assert (EN : match numDofNodal1 L b with Some n => n | None => 0 end = 2 ^ L + b - 1) by (unfold numDofNodal1; destruct (Z.gtb_spec L 0); [reflexivity|lia]).
  unfold globalSizes. cbn [map2 unlin]. fold (globalSizes levels bs). rewrite EN. cbn [fgLI]. rewrite fgPoints_pow by lia.
  set (n := 2 ^ L + b - 1) in *. assert (0 < n) by (unfold n; lia). clearbody n.
  rewrite Z.rem_mod_nonneg, Z.quot_div_nonneg by lia. destruct k as [|k]; cbn [nth].
  - f_equal. f_equal. destruct (b =? 0); reflexivity.
  - apply IH; auto; try lia. apply Z.div_pos; lia.
Qed.

(** ** Loops over all elements *)
Lemma fold_set : forall (h : Z -> Qc -> Qc) n (d : arr) l, 0 <= n ->
  fold_left (fun d i => setA d i (h i (d i))) (zrange 0 n) d l = if (0 <=? l) && (l <? n) then h l (d l) else d l.
Proof.
  intros h n d l Hn. replace n with (Z.of_nat (Z.to_nat n)) by lia. generalize (Z.to_nat n). clear n Hn. intros n.
  unfold zrange. rewrite Z.sub_0_r, Nat2Z.id. induction n as [|n IH].
  - simpl. destruct (Z.leb_spec 0 l), (Z.ltb_spec l 0); simpl; auto; lia.
  - rewrite zseq_S, fold_left_app. cbn [fold_left]. set (d' := fold_left _ (zseq 0 n) d) in *. rewrite Z.add_0_l.
    assert (D : d' (Z.of_nat n) = d (Z.of_nat n)).
    { clear IH. unfold d'. clear d'. assert (G : forall m a (dd : arr), (forall i, a <= i < a + Z.of_nat m -> i <> Z.of_nat n) ->
        fold_left (fun d i => setA d i (h i (d i))) (zseq a m) dd (Z.of_nat n) = dd (Z.of_nat n)).
      { induction m as [|m IHm]; intros a dd H; auto. cbn [zseq fold_left]. rewrite IHm by (intros; apply H; lia). unfold setA.
        destruct (Z.eqb_spec (Z.of_nat n) a); auto. exfalso. apply (H a); lia. }
      apply G. lia. }
    unfold setA. destruct (Z.eqb_spec l (Z.of_nat n)) as [->|NE].
    + rewrite D. destruct (Z.leb_spec 0 (Z.of_nat n)), (Z.ltb_spec (Z.of_nat n) (Z.of_nat (S n))); try lia. reflexivity.
    + rewrite IH. destruct (Z.leb_spec 0 l), (Z.ltb_spec l (Z.of_nat n)), (Z.ltb_spec l (Z.of_nat (S n))); try lia; reflexivity.
Qed.
