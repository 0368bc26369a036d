(** Proofs about interpolation. *)
From Verif Require Import Base TensorModel TensorProofs PartitionModel PartitionProofs DecompModel SubspaceModel Hier1dModel HierMassProofs DofModel DofProofs DofProps QcTools InterpModel.
From Coq Require Import QArith Qcanon Permutation Lqa.
Open Scope Z_scope.
Ltac Zify.zify_post_hook ::= idtac.

(** ** Sums *)
Lemma qs_ext : forall {A} (f g : A -> Qc) l, (forall x, In x l -> f x = g x) -> qsum (map f l) = qsum (map g l).
Proof. intros A f g l H. f_equal. now apply map_ext_in. Qed.
Lemma qs_plus : forall {A} (f g : A -> Qc) l, qsum (map (fun x => f x + g x)%Qc l) = (qsum (map f l) + qsum (map g l))%Qc.
Proof. induction l as [|a l IH]; simpl. ring. rewrite IH. ring. Qed.
Lemma qs_scale : forall {A} c (f : A -> Qc) l, qsum (map (fun x => c * f x)%Qc l) = (c * qsum (map f l))%Qc.
Proof. induction l as [|a l IH]; simpl. ring. rewrite IH. ring. Qed.
Lemma qs_zero : forall {A} (f : A -> Qc) l, (forall x, In x l -> f x = 0%Qc) -> qsum (map f l) = 0%Qc.
Proof. intros A f l H. induction l as [|a l IH]; simpl; auto. rewrite H, IH by (try (intros; apply H); now (left + right)). ring. Qed.
Lemma qs_flat_map : forall {A B} (f : B -> Qc) (g : A -> list B) l, qsum (map f (flat_map g l)) = qsum (map (fun x => qsum (map f (g x))) l).
Proof. induction l as [|a l IH]; simpl; auto. now rewrite map_app, qsum_app, IH. Qed.
Lemma qs_perm : forall l l', Permutation l l' -> qsum l = qsum l'.
Proof. induction 1; simpl; auto. - now rewrite IHPermutation. - ring. - congruence. Qed.
Lemma qs_swap : forall {A B} (f : A -> B -> Qc) l m,
  qsum (map (fun a => qsum (map (f a) m)) l) = qsum (map (fun b => qsum (map (fun a => f a b) l)) m).
Proof.
  intros A B f l m. induction l as [|a l IH]; simpl. - symmetry. now apply qs_zero.
  - rewrite IH. now rewrite <- qs_plus.
Qed.
Lemma qs_fold : forall {A} (f : A -> Qc) l a, fold_left (fun s x => s + f x)%Qc l a = (a + qsum (map f l))%Qc.
Proof. induction l as [|x l IH]; intros a; simpl. ring. rewrite IH. ring. Qed.
Lemma fold_ext : forall {A B} (f g : B -> A -> B) l a, (forall b x, In x l -> f b x = g b x) -> fold_left f l a = fold_left g l a.
Proof. induction l as [|x l IH]; intros a H; simpl; auto. rewrite H by now left. apply IH. intros. apply H. now right. Qed.

Lemma zseq_map : forall n a b, zseq (a + b) n = map (fun k => k + b) (zseq a n).
Proof. induction n; intros a b; simpl; auto. f_equal. replace (a + b + 1) with (a + 1 + b) by lia. apply IHn. Qed.
Lemma zrange_map : forall a b c, zrange (a + c) (b + c) = map (fun k => k + c) (zrange a b).
Proof. intros. unfold zrange. replace (b + c - (a + c)) with (b - a) by lia. apply zseq_map. Qed.
Lemma qs_double : forall (f : Z -> Qc) m, 0 <= m ->
  qsum (map f (zrange 0 (2 * m))) = qsum (map (fun t => Qcplus (f (2 * t)) (f (2 * t + 1))) (zrange 0 m)).
Proof.
  intros f m Hm. unfold zrange. rewrite !Z.sub_0_r. replace (Z.to_nat (2 * m)) with (2 * Z.to_nat m)%nat by lia.
  generalize (Z.to_nat m). intros n. clear m Hm. induction n; auto.
  replace (2 * S n)%nat with (S (S (2 * n))) by lia. rewrite !zseq_S, !map_app, !qsum_app, IHn.
  replace (Z.of_nat (S (2 * n))) with (2 * Z.of_nat n + 1) by lia. replace (Z.of_nat (2 * n)) with (2 * Z.of_nat n) by lia.
  rewrite !Z.add_0_l. unfold qsum. cbn [map fold_right]. ring.
Qed.

(** The sum of a function that vanishes off one index. *)
Definition at1 (b : bool) (w : Qc) : Qc := if b then w else 0%Qc.
Lemma qs_point : forall (G : Z -> Qc) i n w, 0 <= n ->
  qsum (map (fun k => at1 (k =? i) w * G k)%Qc (zrange 0 n)) = at1 ((0 <=? i) && (i <? n)) (w * G i)%Qc.
Proof.
  intros G i n w Hn. replace n with (Z.of_nat (Z.to_nat n)) by lia. generalize (Z.to_nat n). clear n Hn. intros n.
  unfold zrange. rewrite Z.sub_0_r, Nat2Z.id. induction n.
  - simpl. destruct (Z.leb_spec 0 i), (Z.ltb_spec i 0); simpl; auto; lia.
  - rewrite zseq_S, map_app, qsum_app, IHn. change (qsum (map ?f [?x])) with (f x + 0)%Qc. cbv beta.
    replace (0 + Z.of_nat n) with (Z.of_nat n) by lia. unfold at1.
    destruct (Z.leb_spec 0 i), (Z.ltb_spec i (Z.of_nat n)), (Z.ltb_spec i (Z.of_nat (S n))), (Z.eqb_spec (Z.of_nat n) i); simpl; subst; try lia; ring.
Qed.

(** ** One dimension *)
Definition hat (t : Qc) : Qc := if qltb (qabs t) 1 then (1 - qabs t)%Qc else 0%Qc.
Definition axisWeight (b L j : Z) (x : Qc) : Qc :=
  (hat (x * zq (2 ^ L) - zq (j + (if b =? 0 then 1 else 0)))
   + (if (b =? 1) && (j =? 0) then hat (x * zq (2 ^ L) - zq (2 ^ L)) else 0))%Qc.

Definition wfAxis (a : Axis) : Prop :=
  1 <= aLevel a <= 28 /\ 0 <= aBnd a <= 2 /\ 0 <= aLower a < aUpper a /\ aUpper a <= 2 ^ aLevel a + aBnd a - 1 /\
  (aFirst a = true <-> aLower a = 0).
Definition inDomain (b : Z) (x : Qc) : Prop := (0 <= x)%Qc /\ (x <= 1)%Qc /\ (b = 1 -> (x < 1)%Qc).

Lemma hat_floor : forall (X : Qc) m, let f := qfloor X in
  hat (X - zq m)%Qc = (at1 (m =? f) (1 - (X - zq f)) + at1 (m =? f + 1) (X - zq f))%Qc.
Proof.
  intros X m f. pose proof (qfloor_le X) as A. pose proof (qfloor_lt X) as B. fold f in A, B. clearbody f. unfold hat, at1.
  destruct (Z.eqb_spec m f) as [->|N1].
  - destruct (Z.eqb_spec f (f + 1)); [lia|]. rewrite (qabs_pos (X - zq f)) by qlra.
    destruct (qltb_spec (X - zq f) 1); [ring|]. exfalso. qlra.
  - destruct (Z.eqb_spec m (f + 1)) as [->|N2].
    + rewrite zq_add, zq_1. rewrite (qabs_neg (X - (zq f + 1))) by qlra.
      destruct (qltb_spec (- (X - (zq f + 1))) 1); [ring|]. qlra.
    + destruct (Z_lt_le_dec m f).
      * assert (C : (zq m + 1 <= zq f)%Qc) by (rewrite <- zq_1, <- zq_add; apply zq_le; lia).
        rewrite qabs_pos by qlra. destruct (qltb_spec (X - zq m) 1); [exfalso; qlra|ring].
      * assert (C : (zq f + 1 + 1 <= zq m)%Qc) by (rewrite <- zq_1, <- !zq_add; apply zq_le; lia).
        rewrite qabs_neg by qlra. destruct (qltb_spec (- (X - zq m)) 1); [exfalso; qlra|ring].
Qed.

Lemma spacing_inverse : forall a, 0 <= aLevel a <= 28 -> (gridSpacing a * zq (2 ^ aLevel a))%Qc = 1%Qc /\ inverseSpacing a = zq (2 ^ aLevel a).
Proof.
  intros a H. split.
  - apply Qc_is_canon. rewrite this_mult, this_zq. unfold gridSpacing. rewrite this_Q2Qc.
    apply (C54_power_table_partial (aLevel a)). lia.
  - unfold inverseSpacing. f_equal. now apply (C54_power_table_partial (aLevel a)).
Qed.

(** ** One dimension, code side *)
(** One step of the loop over the dimensions: weight and local index of the point, if it contributes. *)
Definition axisStep (a : Axis) (x : Qc) (i : Z) (up : bool) : option (Qc * Z) :=
  let k := i + Z.b2z up in
  if k <? 0 then None
  else if up && (aBnd a =? 1) && (k =? globalSize a) then Some ((1 - pointDistance a 0 (x - 1) * inverseSpacing a)%Qc, 0)
  else if k >? localSize a - 1 then None
  else Some ((1 - pointDistance a k x * inverseSpacing a)%Qc, k).
Definition stepVal (o : option (Qc * Z)) (G : Z -> Qc) : Qc := match o with None => 0%Qc | Some (w, k) => (w * G k)%Qc end.

Lemma pow2_ge : forall L, 1 <= L -> 2 <= 2 ^ L.
Proof. intros L H. replace L with (1 + (L - 1)) by lia. rewrite Z.pow_add_r by lia. change (2 ^ 1) with 2. pose proof (Z.pow_pos_nonneg 2 (L - 1)). lia. Qed.

Section Axis.
Variable a : Axis.
Hypothesis HA : wfAxis a.
Variable x : Qc.
Hypothesis HX : inDomain (aBnd a) x.
Let N := 2 ^ aLevel a.
Let X := (x * zq N)%Qc.
Let f := qfloor X.
Let t := (X - zq f)%Qc.
Let Lo := aLower a + noLower a.

Lemma axis_N : 2 <= N.
Proof. apply pow2_ge. apply HA. Qed.
Lemma axis_h : (gridSpacing a * zq N)%Qc = 1%Qc.
Proof. apply spacing_inverse. destruct HA. lia. Qed.
Lemma axis_inv : inverseSpacing a = zq N.
Proof. apply spacing_inverse. destruct HA. lia. Qed.
Lemma axis_t : (0 <= t)%Qc /\ (t < 1)%Qc.
Proof. pose proof (qfloor_le X). pose proof (qfloor_lt X). unfold t. fold f in H, H0. clearbody f. split; qlra. Qed.
Lemma axis_X : (0 <= X)%Qc /\ (X <= zq N)%Qc /\ (aBnd a = 1 -> (X < zq N)%Qc).
Proof.
  pose proof axis_N as HN. assert (P : (0 < zq N)%Qc) by (rewrite <- zq_0; apply zq_lt; lia).
  destruct HX as (A & B & C). unfold X. split; [|split].
  - replace 0%Qc with (0 * zq N)%Qc by ring. apply Qcmult_le_compat_r; auto. now apply Qclt_le_weak.
  - replace (zq N) with (1 * zq N)%Qc at 2 by ring. apply Qcmult_le_compat_r; auto. now apply Qclt_le_weak.
  - intros E. replace (zq N) with (1 * zq N)%Qc at 2 by ring. apply Qcmult_lt_compat_r; auto.
Qed.
Lemma axis_f : 0 <= f <= N /\ (aBnd a = 1 -> f <= N - 1).
Proof.
  destruct axis_X as (A & B & C). pose proof (qfloor_le X) as D. pose proof (qfloor_lt X) as E. fold f in D, E.
  split; [split|].
  - assert (zq 0 < zq (f + 1))%Qc as H by (rewrite zq_add, zq_1, zq_0; clearbody f X; qlra). apply zq_lt_inv in H. lia.
  - apply zq_le_inv. clearbody f X. qlra.
  - intros E1. specialize (C E1). assert (zq f < zq N)%Qc as H by (clearbody f X; qlra). apply zq_lt_inv in H. lia.
Qed.
Lemma axis_index : qfloor ((x - lowerCoord a) * inverseSpacing a)%Qc = f - Lo.
Proof.
  rewrite axis_inv. unfold lowerCoord. fold Lo.
  replace ((x - zq Lo * gridSpacing a) * zq N)%Qc with (X - zq Lo * (gridSpacing a * zq N))%Qc by (unfold X; ring).
  rewrite axis_h. pose proof axis_t as [A B]. unfold t in *. apply qfloor_unique; rewrite zq_sub; clearbody f X; qlra.
Qed.
Lemma axis_dist : forall k y, (pointDistance a k y * inverseSpacing a)%Qc = qabs (zq (Lo + k) - y * zq N)%Qc.
Proof.
  intros k y. unfold pointDistance. rewrite axis_inv. fold Lo. rewrite qabs_scale.
  - f_equal. replace ((zq (Lo + k) * gridSpacing a - y) * zq N)%Qc with (zq (Lo + k) * (gridSpacing a * zq N) - y * zq N)%Qc by ring.
    rewrite axis_h. ring.
  - rewrite <- zq_0. apply zq_le. pose proof axis_N. lia.
Qed.
Lemma axis_global : globalSize a = N + aBnd a - 1.
Proof. unfold globalSize, numDofNodal1. destruct HA as [H _]. destruct (Z.gtb_spec (aLevel a) 0); [reflexivity|lia]. Qed.

Definition wraps : bool := (aBnd a =? 1) && (aLower a =? 0) && (f + 1 =? N).

Lemma axis_weight : forall k, 0 <= k ->
  axisWeight (aBnd a) (aLevel a) (aLower a + k) x
  = (at1 (k =? f - Lo) (1 - t) + at1 (k =? f - Lo + 1) t + at1 (k =? 0) (at1 wraps t))%Qc.
Proof.
  intros k Hk. unfold axisWeight. fold N. fold X. rewrite !hat_floor. fold f. fold t. destruct HA as (_ & HB & HL & HU & _).
  pose proof axis_f as [F1 F2]. pose proof axis_N.
  replace (aLower a + k + (if aBnd a =? 0 then 1 else 0)) with (Lo + k).
  2:{ unfold Lo, noLower. destruct (Z.eqb_spec (aBnd a) 0), (Z.gtb_spec (aBnd a) 0); lia. }
  replace (Lo + k =? f) with (k =? f - Lo) by (destruct (Z.eqb_spec k (f - Lo)), (Z.eqb_spec (Lo + k) f); lia).
  replace (Lo + k =? f + 1) with (k =? f - Lo + 1) by (destruct (Z.eqb_spec k (f - Lo + 1)), (Z.eqb_spec (Lo + k) (f + 1)); lia).
  f_equal. unfold wraps. destruct (Z.eqb_spec (aBnd a) 1) as [E|E]; simpl.
  - specialize (F2 E). destruct (Z.eqb_spec (aLower a + k) 0), (Z.eqb_spec k 0), (Z.eqb_spec (aLower a) 0); try lia; simpl; auto.
    destruct (Z.eqb_spec N f), (Z.eqb_spec N (f + 1)), (Z.eqb_spec (f + 1) N); try lia; unfold at1; ring.
  - destruct (k =? 0); reflexivity.
Qed.

Lemma axis_sum : forall G, qsum (map (fun k => axisWeight (aBnd a) (aLevel a) (aLower a + k) x * G k)%Qc (zrange 0 (localSize a)))
  = (at1 ((0 <=? f - Lo) && (f - Lo <? localSize a)) ((1 - t) * G (f - Lo)%Z)
     + at1 ((0 <=? f - Lo + 1) && (f - Lo + 1 <? localSize a)) (t * G (f - Lo + 1)%Z)
     + at1 wraps (t * G 0%Z))%Qc.
Proof.
  intros G. destruct HA as (_ & _ & HL & _ & _).
  rewrite (qs_ext _ (fun k => at1 (k =? f - Lo) (1 - t) * G k + at1 (k =? f - Lo + 1) t * G k + at1 (k =? 0) (at1 wraps t) * G k)%Qc).
  2:{ intros k Hk. apply zrange_In in Hk. rewrite axis_weight by lia. ring. }
  rewrite !qs_plus. unfold localSize in *. rewrite !qs_point by lia. f_equal.
  destruct (Z.leb_spec 0 0); [|lia]. destruct (Z.ltb_spec 0 (aUpper a - aLower a)); [|lia]. simpl. unfold at1. destruct wraps; ring.
Qed.

Lemma axis_none : lowIndex a x = None -> forall G,
  qsum (map (fun k => axisWeight (aBnd a) (aLevel a) (aLower a + k) x * G k)%Qc (zrange 0 (localSize a))) = 0%Qc.
Proof.
  intros H G. rewrite axis_sum. unfold lowIndex in H. rewrite axis_index in H.
  pose proof axis_f as [F1 F2]. pose proof axis_N. pose proof HA as (H1 & H2 & H3 & H4 & H5).
  assert (LoE : aBnd a = 1 -> Lo = aLower a) by (intros E; unfold Lo, noLower; rewrite E; simpl; lia).
  assert (Z : forall b w, b = false -> at1 b w = 0%Qc) by (intros b w ->; reflexivity).
  destruct (Z.ltb_spec (f - Lo) (-1)).
  - rewrite !Z; [ring| | |].
    + unfold wraps. destruct (Z.eqb_spec (aBnd a) 1) as [E|]; auto. specialize (LoE E). destruct (Z.eqb_spec (aLower a) 0); auto. lia.
    + destruct (Z.leb_spec 0 (f - Lo + 1)); auto. lia.
    + destruct (Z.leb_spec 0 (f - Lo)); auto. lia.
  - destruct (negb (qltb x (1 - gridSpacing a)%Qc) && (aBnd a =? 1) && aFirst a) eqn:B; [discriminate|].
    destruct (Z.gtb_spec (f - Lo) (localSize a - 1)); [|discriminate].
    rewrite !Z; [ring| | |].
    + unfold wraps. destruct (Z.eqb_spec (aBnd a) 1) as [E|]; auto. specialize (LoE E). destruct (Z.eqb_spec (aLower a) 0) as [E0|]; auto.
      destruct (Z.eqb_spec (f + 1) N) as [EN|]; auto. exfalso. apply H5 in E0. rewrite E0 in B. simpl in B.
      rewrite !andb_true_r in B. apply negb_false_iff in B. destruct (qltb_spec x (1 - gridSpacing a)); [|discriminate].
      assert (K : (X < zq f)%Qc).
      { replace (zq f) with ((1 - gridSpacing a) * zq N)%Qc. - unfold X. apply Qcmult_lt_compat_r; auto. rewrite <- zq_0. apply zq_lt. lia.
        - replace ((1 - gridSpacing a) * zq N)%Qc with (zq N - gridSpacing a * zq N)%Qc by ring. rewrite axis_h, <- EN, zq_add, zq_1. ring. }
      pose proof axis_t as [T _]. unfold t in T. clearbody f X. qlra.
    + destruct (Z.ltb_spec (f - Lo + 1) (localSize a)); [lia|]. apply andb_false_r.
    + destruct (Z.ltb_spec (f - Lo) (localSize a)); [lia|]. apply andb_false_r.
Qed.

Lemma axis_some : forall i, lowIndex a x = Some i -> i = f - Lo /\ -1 <= i.
Proof.
  intros i. unfold lowIndex. rewrite axis_index. destruct (Z.ltb_spec (f - Lo) (-1)); [discriminate|].
  destruct (_ && _ && _); [intros [= <-]; lia|]. destruct (_ >? _); [discriminate|intros [= <-]; lia].
Qed.

Lemma axis_steps : forall i, lowIndex a x = Some i -> forall G,
  (stepVal (axisStep a x i false) G + stepVal (axisStep a x i true) G)%Qc
  = qsum (map (fun k => axisWeight (aBnd a) (aLevel a) (aLower a + k) x * G k)%Qc (zrange 0 (localSize a))).
Proof.
  intros i Hi G. apply axis_some in Hi as [-> Hge]. rewrite axis_sum.
  pose proof axis_f as [F1 F2]. pose proof axis_N. pose proof HA as (H1 & H2 & H3 & H4 & H5). pose proof axis_t as [T0 T1].
  assert (LoE : aBnd a = 1 -> Lo = aLower a) by (intros E; unfold Lo, noLower; rewrite E; simpl; lia).
  assert (D0 : (1 - pointDistance a (f - Lo) x * inverseSpacing a)%Qc = (1 - t)%Qc).
  { rewrite axis_dist. replace (Lo + (f - Lo)) with f by lia. fold X. rewrite qabs_neg; unfold t in *; clearbody f X; qlra. }
  assert (D1 : (1 - pointDistance a (f - Lo + 1) x * inverseSpacing a)%Qc = t).
  { rewrite axis_dist. replace (Lo + (f - Lo + 1)) with (f + 1) by lia. fold X. rewrite zq_add, zq_1. rewrite qabs_pos; unfold t in *; clearbody f X; qlra. }
  unfold axisStep. change (Z.b2z false) with 0. change (Z.b2z true) with 1. rewrite Z.add_0_r. cbn [andb].
  rewrite D0, D1. rewrite axis_global.
  assert (A0 : stepVal (if f - Lo <? 0 then None else if f - Lo >? localSize a - 1 then None else Some ((1 - t)%Qc, f - Lo)) G
     = at1 ((0 <=? f - Lo) && (f - Lo <? localSize a)) ((1 - t) * G (f - Lo)%Z)).
  { destruct (Z.ltb_spec (f - Lo) 0), (Z.leb_spec 0 (f - Lo)); try lia; auto.
    destruct (Z.gtb_spec (f - Lo) (localSize a - 1)), (Z.ltb_spec (f - Lo) (localSize a)); try lia; auto. }
  rewrite A0. rewrite <- Qcplus_assoc. f_equal. clear A0.
  destruct (Z.ltb_spec (f - Lo + 1) 0); [lia|].
  destruct (Z.leb_spec 0 (f - Lo + 1)); [|lia]. cbn [andb].
  destruct ((aBnd a =? 1) && (f - Lo + 1 =? N + aBnd a - 1)) eqn:W.
  - apply andb_true_iff in W as [W1 W2]. apply Z.eqb_eq in W1. specialize (LoE W1). specialize (F2 W1).
    assert (E2 : aLower a = 0 /\ f + 1 = N) by lia. destruct E2 as [E2 E3].
    assert (WR : wraps = true) by (unfold wraps; rewrite W1, E2, E3, !Z.eqb_refl; reflexivity).
    rewrite WR. destruct (Z.ltb_spec (f - Lo + 1) (localSize a)); [unfold localSize in *; lia|]. cbn [at1 stepVal].
    assert (DW : (1 - pointDistance a 0 (x - 1) * inverseSpacing a)%Qc = t).
    { rewrite axis_dist. replace (Lo + 0) with 0 by lia. replace ((x - 1) * zq N)%Qc with (X - zq N)%Qc by (unfold X; ring).
      rewrite <- E3, zq_add, zq_1, zq_0. rewrite qabs_pos; unfold t in *; clearbody f X; qlra. }
    rewrite DW. ring.
  - assert (WR : wraps = false).
    { unfold wraps. destruct (Z.eqb_spec (aBnd a) 1) as [E|]; auto. destruct (Z.eqb_spec (aLower a) 0) as [E0|]; auto.
      destruct (Z.eqb_spec (f + 1) N) as [EN|]; auto. specialize (LoE E). cbn [andb] in W. apply Z.eqb_neq in W. exfalso. apply W. lia. }
    rewrite WR. destruct (Z.gtb_spec (f - Lo + 1) (localSize a - 1)), (Z.ltb_spec (f - Lo + 1) (localSize a)); try lia; cbn [at1 stepVal]; ring.
Qed.

Lemma axis_steps_nonneg : forall i up w k, lowIndex a x = Some i -> axisStep a x i up = Some (w, k) -> (0 <= w)%Qc.
Proof.
  intros i up w k Hi. apply axis_some in Hi as [-> Hge].
  pose proof axis_f as [F1 F2]. pose proof axis_N. pose proof HA as (H1 & H2 & H3 & H4 & H5). pose proof axis_t as [T0 T1].
  assert (LoE : aBnd a = 1 -> Lo = aLower a) by (intros E; unfold Lo, noLower; rewrite E; simpl; lia).
  unfold axisStep. rewrite axis_global. destruct (_ <? 0); [discriminate|].
  destruct (up && (aBnd a =? 1) && (f - Lo + Z.b2z up =? N + aBnd a - 1)) eqn:W.
  - apply andb_true_iff in W as [W W3]. apply andb_true_iff in W as [W1 W2]. subst up. apply Z.eqb_eq in W2. specialize (LoE W2). specialize (F2 W2).
    change (Z.b2z true) with 1 in W3. assert (E2 : aLower a = 0 /\ f + 1 = N) by lia. destruct E2 as [E2 E3].
    intros [= <- _]. rewrite axis_dist. replace (Lo + 0) with 0 by lia. replace ((x - 1) * zq N)%Qc with (X - zq N)%Qc by (unfold X; ring).
    rewrite <- E3, zq_add, zq_1, zq_0. rewrite qabs_pos; unfold t in *; clearbody f X; qlra.
  - destruct (_ >? _); [discriminate|]. intros [= <- _]. rewrite axis_dist. fold X. destruct up; simpl Z.b2z.
    + replace (Lo + (f - Lo + 1)) with (f + 1) by lia. rewrite zq_add, zq_1. rewrite qabs_pos; unfold t in *; clearbody f X; qlra.
    + replace (Lo + (f - Lo + 0)) with f by lia. rewrite qabs_neg; unfold t in *; clearbody f X; qlra.
Qed.
End Axis.

(** ** All dimensions *)
Lemma ip_acc : forall a b s, innerProduct a b s = s + innerProduct a b 0.
Proof. induction a as [|x a IH]; intros [|y b] s; cbn [innerProduct]; try lia. rewrite IH, (IH b (0 + x * y)). lia. Qed.

Lemma neighbor_step : forall a axes x xs i li it phi idx,
  neighbor (a :: axes) (x :: xs) (i :: li) it phi idx
  = match axisStep a x i (Z.odd it) with
    | None => (0%Qc, idx)
    | Some (w, k) => neighbor axes xs li (Z.div2 it) (phi * w)%Qc (idx + (k - i) * aOffset a)
    end.
Proof.
  intros. cbn [neighbor]. unfold axisStep. destruct (_ <? 0); auto. destruct (_ && _ && _).
  - f_equal. lia.
  - destruct (_ >? _); auto. f_equal. lia.
Qed.

Section Eval.
Variable data : arr.

Definition sumAll (axes : list Axis) (xs : list Qc) (li : list Z) (phi : Qc) (idx : Z) : Qc :=
  qsum (map (fun it => let (p, k) := neighbor axes xs li it phi idx in p * data k)%Qc (zrange 0 (2 ^ Z.of_nat (length axes)))).

Fixpoint tensorSum (axes : list Axis) (xs : list Qc) (base : Z) : Qc :=
  match axes, xs with
  | a :: axes', x :: xs' =>
      qsum (map (fun k => axisWeight (aBnd a) (aLevel a) (aLower a + k) x * tensorSum axes' xs' (base + k * aOffset a)%Z)%Qc (zrange 0 (localSize a)))
  | _, _ => data base
  end.

Definition wfAxes (axes : list Axis) (xs : list Qc) : Prop := Forall2 (fun a x => wfAxis a /\ inDomain (aBnd a) x) axes xs.

Lemma sumAll_tensor : forall axes xs, wfAxes axes xs -> forall li phi base, lowIndices axes xs = Some li ->
  sumAll axes xs li phi (base + innerProduct li (map aOffset axes) 0) = (phi * tensorSum axes xs base)%Qc.
Proof.
  induction 1 as [|a x axes xs [HA HX] HF IH]; intros li phi base Hl.
  - injection Hl as <-. unfold sumAll. cbn [length neighbor tensorSum]. change (zrange 0 (2 ^ Z.of_nat 0)) with [0].
    cbn [map innerProduct]. change (qsum [?q]) with (q + 0)%Qc. rewrite Z.add_0_r. ring.
  - cbn [lowIndices] in Hl. destruct (lowIndex a x) as [i|] eqn:Ei; [|discriminate].
    destruct (lowIndices axes xs) as [is|]; [|discriminate]. injection Hl as <-.
    cbn [tensorSum]. rewrite <- (axis_steps a HA x HX i Ei). unfold sumAll. cbn [length].
    replace (2 ^ Z.of_nat (S (length axes))) with (2 * 2 ^ Z.of_nat (length axes)) by (rewrite Nat2Z.inj_succ, Z.pow_succ_r by lia; lia).
    rewrite qs_double by lia. rewrite qs_plus.
    assert (ST : forall up, qsum (map (fun t => let (p, k) := neighbor (a :: axes) (x :: xs) (i :: is) (2 * t + Z.b2z up) phi
                      (base + innerProduct (i :: is) (map aOffset (a :: axes)) 0) in (p * data k)%Qc) (zrange 0 (2 ^ Z.of_nat (length axes))))
         = (phi * stepVal (axisStep a x i up) (fun k => tensorSum axes xs (base + k * aOffset a)))%Qc).
    { intros up. rewrite (qs_ext _ (fun t => match axisStep a x i up with
             | None => 0%Qc
             | Some (w, k) => let (p, k) := neighbor axes xs is t (phi * w)%Qc (base + k * aOffset a + innerProduct is (map aOffset axes) 0) in (p * data k)%Qc end)).
      - destruct (axisStep a x i up) as [[w k]|]; cbn [stepVal].
        + fold (sumAll axes xs is (phi * w)%Qc (base + k * aOffset a + innerProduct is (map aOffset axes) 0)). rewrite IH by auto. ring.
        + rewrite qs_zero by auto. ring.
      - intros t _. rewrite neighbor_step.
        replace (Z.odd (2 * t + Z.b2z up)) with up by (destruct up; simpl Z.b2z; [now rewrite Z.odd_add_mul_2 with (n := 1) (m := t) || (rewrite Z.add_comm, Z.odd_add_mul_2; reflexivity)|rewrite Z.add_0_r, Z.odd_mul; reflexivity]).
        replace (Z.div2 (2 * t + Z.b2z up)) with t.
        2:{ rewrite Z.div2_div. destruct up; simpl Z.b2z; [|rewrite Z.add_0_r]; (rewrite Z.mul_comm, Z.div_add_l by lia) || (rewrite Z.mul_comm, Z.div_mul by lia); simpl; lia. }
        destruct (axisStep a x i up) as [[w k]|].
        + cbn [map innerProduct]. rewrite (ip_acc is _ (0 + i * aOffset a)).
          replace (base + (0 + i * aOffset a + innerProduct is (map aOffset axes) 0) + (k - i) * aOffset a)
            with (base + k * aOffset a + innerProduct is (map aOffset axes) 0) by ring. reflexivity.
        + ring. }
    pose proof (ST false) as S0. pose proof (ST true) as S1. change (Z.b2z false) with 0 in S0. change (Z.b2z true) with 1 in S1.
    rewrite (qs_ext _ (fun t => let (p, k) := neighbor (a :: axes) (x :: xs) (i :: is) (2 * t + 0) phi
                      (base + innerProduct (i :: is) (map aOffset (a :: axes)) 0) in (p * data k)%Qc)) by (intros; now rewrite Z.add_0_r).
    rewrite S0, S1. ring.
Qed.

Lemma tensorSum_none : forall axes xs, wfAxes axes xs -> lowIndices axes xs = None -> forall base, tensorSum axes xs base = 0%Qc.
Proof.
  induction 1 as [|a x axes xs [HA HX] HF IH]; intros Hl base; [discriminate|].
  cbn [lowIndices] in Hl. cbn [tensorSum]. destruct (lowIndex a x) as [i|] eqn:Ei.
  - destruct (lowIndices axes xs); [discriminate|]. apply qs_zero. intros k _. rewrite IH by auto. ring.
  - now apply axis_none.
Qed.

Lemma neighbor_nonneg : forall axes xs, wfAxes axes xs -> forall li it phi idx, lowIndices axes xs = Some li -> (0 <= phi)%Qc ->
  (0 <= fst (neighbor axes xs li it phi idx))%Qc.
Proof.
  induction 1 as [|a x axes xs [HA HX] HF IH]; intros li it phi idx Hl Hp; [exact Hp|].
  cbn [lowIndices] in Hl. destruct (lowIndex a x) as [i|] eqn:Ei; [|discriminate].
  destruct (lowIndices axes xs) as [is|]; [|discriminate]. injection Hl as <-. rewrite neighbor_step.
  destruct (axisStep a x i (Z.odd it)) as [[w k]|] eqn:E; [|apply Qcle_refl].
  apply IH; auto. pose proof (axis_steps_nonneg a HA x HX i _ w k Ei E) as Hw.
  replace 0%Qc with (0 * w)%Qc by ring. now apply Qcmult_le_compat_r.
Qed.

Lemma evalLocal_tensor : forall axes xs, wfAxes axes xs -> evalLocal axes xs data = tensorSum axes xs 0.
Proof.
  intros axes xs HF. unfold evalLocal. destruct (lowIndices axes xs) as [li|] eqn:E; [|symmetry; now apply tensorSum_none].
  unfold evalNeighbors, powerOfTwoByBitshift. rewrite Z.shiftl_1_l.
  rewrite (fold_ext _ (fun res it => res + (let (p, k) := neighbor axes xs li it 1 (0 + innerProduct li (map aOffset axes) 0) in p * data k))%Qc).
  - rewrite qs_fold. change (qsum _) with (sumAll axes xs li 1 (0 + innerProduct li (map aOffset axes) 0)).
    rewrite sumAll_tensor by auto. ring.
  - intros s it _. rewrite Z.add_0_l.
    assert (P1 : (0 <= 1)%Qc) by (rewrite <- zq_0, <- zq_1; apply zq_le; lia).
    pose proof (neighbor_nonneg axes xs HF li it 1%Qc (innerProduct li (map aOffset axes) 0) E P1) as P.
    destruct (neighbor axes xs li it 1 (innerProduct li (map aOffset axes) 0)) as [p k]. cbn [fst] in P.
    destruct (qltb_spec 0 p); auto. assert (p = 0%Qc) as -> by (apply Qcle_antisym; auto; now apply Qcnot_lt_le). ring.
Qed.
End Eval.

(** ** The sum over the points of a box *)
Fixpoint pointWeight (bs levels v : list Z) (xs : list Qc) : Qc :=
  match bs, levels, v, xs with
  | b :: bs', L :: levels', j :: v', x :: xs' => (axisWeight b L j x * pointWeight bs' levels' v' xs')%Qc
  | _, _, _, _ => 1%Qc
  end.

Lemma tensorSum_box : forall data levels bs lo up offs coords xs base,
  length bs = length levels -> length lo = length levels -> length up = length levels -> length offs = length levels ->
  length coords = length levels -> length xs = length levels ->
  tensorSum data (axesFrom levels bs lo up offs coords) xs base
  = qsum (map (fun v => pointWeight bs levels v xs * data (base + innerProduct (vsub v lo) offs 0)%Z)%Qc (boxPoints lo up)).
Proof.
  intros data. induction levels as [|L levels IH]; intros [|b bs] [|l lo] [|u up] [|o offs] [|c coords] [|x xs] base; simpl length; intros; try lia.
  - unfold boxPoints. cbn [axesFrom tensorSum map2 cart map pointWeight vsub innerProduct]. rewrite Z.add_0_r.
    change (qsum [?q]) with (q + 0)%Qc. ring.
  - unfold boxPoints. cbn [axesFrom tensorSum map2 cart aBnd aLevel aLower aOffset]. unfold localSize; cbn [aUpper aLower].
    rewrite qs_flat_map. replace (zrange l u) with (zrange (0 + l) (u - l + l)) by (f_equal; lia). rewrite zrange_map, map_map.
    apply qs_ext. intros k _. rewrite IH by lia. rewrite <- qs_scale. rewrite map_map. unfold boxPoints. apply qs_ext. intros v _.
    cbn [pointWeight vsub innerProduct]. rewrite (ip_acc _ _ (0 + _)). rewrite (Z.add_comm k l).
    replace (base + (0 + (l + k - l) * o + innerProduct (vsub v lo) offs 0)) with (base + k * o + innerProduct (vsub v lo) offs 0) by ring. ring.
Qed.

Lemma axesFrom_wf : forall levels bs lo up offs coords xs,
  length bs = length levels -> length lo = length levels -> length up = length levels -> length offs = length levels ->
  length coords = length levels -> length xs = length levels ->
  (forall i, (i < length levels)%nat -> 1 <= nth i levels 0 <= 28 /\ 0 <= nth i bs 0 <= 2 /\ 0 <= nth i lo 0 < nth i up 0 /\
     nth i up 0 <= 2 ^ nth i levels 0 + nth i bs 0 - 1 /\ (nth i coords 0 = 0 <-> nth i lo 0 = 0) /\ inDomain (nth i bs 0) (nth i xs 0%Qc)) ->
  wfAxes (axesFrom levels bs lo up offs coords) xs.
Proof.
  induction levels as [|L levels IH]; intros [|b bs] [|l lo] [|u up] [|o offs] [|c coords] [|x xs]; simpl length; intros; try lia; cbn [axesFrom].
  - constructor.
  - constructor.
    + destruct (H5 0%nat ltac:(lia)) as (A1 & A2 & A3 & A4 & A5 & A6). cbn [nth] in *. split; [|auto].
      unfold wfAxis; cbn [aLevel aBnd aLower aUpper aFirst]. rewrite Z.eqb_eq. auto.
    + apply IH; try lia. intros i Hi. apply (H5 (S i)). lia.
Qed.
