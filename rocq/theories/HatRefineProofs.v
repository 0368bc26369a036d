(** Piecewise multilinear functions: sampling them on a finer grid changes nothing, and they have no surplus on finer levels. *)
From Verif Require Import Base TensorModel TensorProofs PartitionModel PartitionProofs DecompModel DofModel Level1dModel Level1dProofs SubspaceModel Hier1dModel Hier1dProofs HierMassProofs CombiSchemeModel
  LevelSetsModel SparseGridModel SystemModel SystemProofs SystemHatProofs QcTools InterpModel InterpProofs InterpProps CombiInterpProofs.
From Coq Require Import QArith Qcanon.
Open Scope Z_scope.
Ltac Zify.zify_post_hook ::= idtac.

(** ** One dimension *)

(** The hat function is affine between integers. *)
Lemma hat_piece : forall n T, (zq n <= T)%Qc -> (T <= zq n + 1)%Qc -> hat T = if n =? -1 then (1 + T)%Qc else if n =? 0 then (1 - T)%Qc else 0%Qc.
Proof.
  intros n T H1 H2. unfold hat. destruct (Z.eqb_spec n (-1)) as [->|N1].
  - assert (E : zq (-1) = (- (1))%Qc) by (apply Qc_is_canon; reflexivity). rewrite E in *. rewrite qabs_neg by qlra. destruct (qltb_spec (- T) 1); [ring|qlra].
  - destruct (Z.eqb_spec n 0) as [->|N0].
    + rewrite zq_0 in *. rewrite qabs_pos by auto. destruct (qltb_spec T 1); [ring|qlra].
    + destruct (Z_lt_le_dec n 0).
      * assert (C : (zq n + 1 + 1 <= zq 0)%Qc) by (rewrite <- zq_1, <- !zq_add; apply zq_le; lia). rewrite zq_0 in C. rewrite qabs_neg by qlra. destruct (qltb_spec (- T) 1); [exfalso; qlra|reflexivity].
      * assert (C : (zq 1 <= zq n)%Qc) by (apply zq_le; lia). rewrite zq_1 in C. rewrite qabs_pos by qlra. destruct (qltb_spec T 1); [exfalso; qlra|reflexivity].
Qed.
Lemma hat_shift : forall k q X, (zq k <= X)%Qc -> (X <= zq k + 1)%Qc ->
  hat (X - zq q)%Qc = if k - q =? -1 then (1 + (X - zq q))%Qc else if k - q =? 0 then (1 - (X - zq q))%Qc else 0%Qc.
Proof. intros k q X H1 H2. apply hat_piece; rewrite zq_sub; qlra. Qed.
Lemma aw_affine : forall b t j k s x1 x2 x3, (x3 = (1 - s) * x1 + s * x2)%Qc ->
  (zq k <= x1 * zq (2 ^ t)%Z)%Qc -> (x1 * zq (2 ^ t)%Z <= zq k + 1)%Qc -> (zq k <= x2 * zq (2 ^ t)%Z)%Qc -> (x2 * zq (2 ^ t)%Z <= zq k + 1)%Qc ->
  (zq k <= x3 * zq (2 ^ t)%Z)%Qc -> (x3 * zq (2 ^ t)%Z <= zq k + 1)%Qc ->
  (axisWeight b t j x3 = (1 - s) * axisWeight b t j x1 + s * axisWeight b t j x2)%Qc.
Proof.
  intros b t j k s x1 x2 x3 E A1 A2 B1 B2 C1 C2. unfold axisWeight. rewrite !(hat_shift k) by auto. subst x3.
  set (q := j + _). destruct (k - q =? -1), (k - q =? 0), ((b =? 1) && (j =? 0)), (k - 2 ^ t =? -1), (k - 2 ^ t =? 0); ring.
Qed.

(** Weights by position. *)
Lemma aw_sum : forall b L x (g : arr), 0 <= b <= 2 -> 1 <= L -> inDomain b x -> let f := qfloor (x * zq (2 ^ L)) in let s := (x * zq (2 ^ L) - zq f)%Qc in
  0 <= f /\ f <= 2 ^ L /\ (0 <= s)%Qc /\ (s < 1)%Qc /\ (f = 2 ^ L -> s = 0%Qc) /\
  qsum (map (fun k => axisWeight b L k x * g k)%Qc (zrange 0 (2 ^ L + b - 1))) = ((1 - s) * padded b L g f + s * (if f <? 2 ^ L then padded b L g (f + 1) else 0))%Qc.
Proof.
  intros b L x g Hb HL (D1 & D2 & D3) f s. pose proof (Z.pow_pos_nonneg 2 L ltac:(lia) ltac:(lia)) as PN. set (N := 2 ^ L) in *.
  assert (N2 : 2 <= N) by (apply pow2_ge; lia).
  assert (Pz : (0 < zq N)%Qc) by (rewrite <- zq_0; apply zq_lt; lia).
  pose proof (qfloor_le (x * zq N)%Qc) as F1. pose proof (qfloor_lt (x * zq N)%Qc) as F2. fold f in F1, F2.
  assert (X0 : (0 <= x * zq N)%Qc) by (replace 0%Qc with (0 * zq N)%Qc by ring; apply Qcmult_le_compat_r; auto; now apply Qclt_le_weak).
  assert (X1 : (x * zq N <= zq N)%Qc) by (rewrite <- (Qcmult_1_l (zq N)) at 2; apply Qcmult_le_compat_r; auto; now apply Qclt_le_weak).
  assert (G0 : 0 <= f) by (assert (X : (zq (-1) < zq f)%Qc) by (replace (zq (-1)) with (0 - 1)%Qc by (apply Qc_is_canon; reflexivity); qlra); apply zq_lt_inv in X; lia).
  assert (G1 : f <= N) by (apply zq_le_inv; qlra).
  assert (SN : f = N -> s = 0%Qc) by (intros E; unfold s; rewrite E in *; qlra).
  assert (B1 : b = 1 -> f < N).
  { intros B. apply zq_lt_inv. assert (X : (x * zq N < 1 * zq N)%Qc) by (apply Qcmult_lt_compat_r; auto). rewrite Qcmult_1_l in X. qlra. }
  split; auto. split; auto. split; [unfold s; qlra|]. split; [unfold s; qlra|]. split; auto.
  unfold axisWeight. fold N.
  rewrite (qs_ext _ (fun k => at1 (k =? f - firstPos b) (1 - s) * g k + at1 (k =? f + 1 - firstPos b) s * g k
     + at1 (k =? 0) (if b =? 1 then at1 (N =? f) (1 - s) + at1 (N =? f + 1) s else 0) * g k)%Qc).
  - rewrite qs_plus, qs_plus, !qs_point by lia. unfold padded, firstPos. fold N. destruct (Z.eqb_spec b 0) as [->|B0]; [|destruct (Z.eqb_spec b 1) as [->|B11]].
    + cbn [Z.eqb]. replace (f + 1 - 1) with f by lia.
      destruct (Z.leb_spec 0 (f - 1)), (Z.ltb_spec (f - 1) (N + 0 - 1)), (Z.leb_spec 0 f), (Z.ltb_spec f (N + 0 - 1)), (Z.ltb_spec 0 f), (Z.ltb_spec f N), (Z.ltb_spec 0 (f + 1)), (Z.ltb_spec (f + 1) N); cbn [at1 andb]; try lia; unfold at1; destruct (_ && _); ring.
    + specialize (B1 eq_refl). replace (f - 0) with f by lia. replace (f + 1 - 0) with (f + 1) by lia. cbn [Z.eqb Pos.eqb andb Z.leb Z.compare].
      destruct (Z.eqb_spec N f); [lia|]. destruct (Z.eqb_spec N (f + 1)) as [EN|]; destruct (Z.eqb_spec f N); try lia; destruct (Z.eqb_spec (f + 1) N); try lia;
      destruct (Z.leb_spec 0 f), (Z.ltb_spec f (N + 1 - 1)), (Z.leb_spec 0 (f + 1)), (Z.ltb_spec (f + 1) (N + 1 - 1)), (Z.ltb_spec 0 (N + 1 - 1)), (Z.ltb_spec f N); cbn [at1 andb]; try lia; ring.
    + assert (b = 2) as -> by lia. replace (f - 0) with f by lia. replace (f + 1 - 0) with (f + 1) by lia. cbn [Z.eqb Pos.eqb andb].
      destruct (Z.leb_spec 0 f), (Z.ltb_spec f (N + 2 - 1)), (Z.leb_spec 0 (f + 1)), (Z.ltb_spec (f + 1) (N + 2 - 1)), (Z.ltb_spec f N); cbn [at1 andb]; try lia; unfold at1; destruct (_ && _); ring.
  - intros k Hk. apply zrange_In in Hk. rewrite !hat_floor. fold f s. unfold firstPos.
    assert (E1 : (k + (if b =? 0 then 1 else 0) =? f) = (k =? f - (if b =? 0 then 1 else 0))) by (destruct (Z.eqb_spec (k + (if b =? 0 then 1 else 0)) f), (Z.eqb_spec k (f - (if b =? 0 then 1 else 0))); lia).
    assert (E2 : (k + (if b =? 0 then 1 else 0) =? f + 1) = (k =? f + 1 - (if b =? 0 then 1 else 0))) by (destruct (Z.eqb_spec (k + (if b =? 0 then 1 else 0)) (f + 1)), (Z.eqb_spec k (f + 1 - (if b =? 0 then 1 else 0))); lia).
    rewrite E1, E2. unfold at1. destruct (b =? 1), (k =? 0); cbn [andb]; ring.
Qed.

(** A coarse hat function at the positions of a finer grid, ends included. *)
Lemma aw_padded : forall b t j L p (g : arr), 0 <= b <= 2 -> 1 <= t -> 1 <= L -> 0 <= j < 2 ^ t + b - 1 -> 0 <= p <= 2 ^ L ->
  (forall k, 0 <= k < 2 ^ L + b - 1 -> g k = axisWeight b t j (zq (k + firstPos b) / zq (2 ^ L))) ->
  padded b L g p = axisWeight b t j (zq p / zq (2 ^ L)).
Proof.
  intros b t j L p g Hb Ht HL Hj Hp HG. pose proof (Z.pow_pos_nonneg 2 L ltac:(lia) ltac:(lia)) as PN. pose proof (Z.pow_pos_nonneg 2 t ltac:(lia) ltac:(lia)) as PT. pose proof (zq_nz L ltac:(lia)) as NZ.
  assert (HI : forall n, n <> 0 -> hat (zq n) = 0%Qc).
  { intros n Hn. rewrite (hat_piece n) by (try apply Qcle_refl; qlra). destruct (Z.eqb_spec n (-1)) as [->|]; [|now destruct (Z.eqb_spec n 0)]. apply Qc_is_canon. reflexivity. }
  assert (H0 : hat 0%Qc = 1%Qc) by (apply Qc_is_canon; reflexivity).
  assert (Q0 : (zq 0 / zq (2 ^ L) * zq (2 ^ t) = zq 0)%Qc) by (rewrite zq_0; field; auto).
  assert (Q1 : (zq (2 ^ L) / zq (2 ^ L) * zq (2 ^ t) = zq (2 ^ t))%Qc) by (field; auto).
  unfold padded. destruct (Z.eqb_spec b 0) as [->|B0].
  - destruct (Z.ltb_spec 0 p); [|].
    + cbn [andb]. destruct (Z.ltb_spec p (2 ^ L)).
      * rewrite HG by lia. unfold firstPos. cbn [Z.eqb]. do 3 f_equal. lia.
      * assert (p = 2 ^ L) as -> by lia. unfold axisWeight. cbn [Z.eqb andb]. rewrite Q1, <- zq_sub, HI by lia. ring.
    + assert (p = 0) as -> by lia. cbn [andb]. unfold axisWeight. cbn [Z.eqb andb]. rewrite Q0, <- zq_sub, HI by lia. ring.
  - assert (FP : forall k, k + firstPos b = k) by (intros; unfold firstPos; destruct (Z.eqb_spec b 0); lia).
    destruct (Z.eqb_spec b 1) as [->|B1]; cbn [andb].
    + destruct (Z.eqb_spec p (2 ^ L)) as [->|NE].
      * rewrite HG, FP by lia. unfold axisWeight. cbn [Z.eqb Pos.eqb andb]. rewrite Q0, Q1, <- !zq_sub. destruct (Z.eqb_spec j 0) as [->|J].
        -- replace (0 - (0 + 0)) with 0 by lia. replace (2 ^ t - 2 ^ t) with 0 by lia. rewrite zq_0, H0, !HI by lia. ring.
        -- rewrite !HI by lia. ring.
      * rewrite HG, FP by lia. reflexivity.
    + rewrite HG, FP by lia. reflexivity.
Qed.

Lemma aw_refine : forall b t j L x, 0 <= b <= 2 -> 1 <= t <= L -> 0 <= j < 2 ^ t + b - 1 -> inDomain b x ->
  qsum (map (fun k => axisWeight b L k x * axisWeight b t j (zq (k + firstPos b) / zq (2 ^ L)))%Qc (zrange 0 (2 ^ L + b - 1))) = axisWeight b t j x.
Proof.
  intros b t j L x Hb Ht Hj HX. pose proof (Z.pow_pos_nonneg 2 L ltac:(lia) ltac:(lia)) as PN. pose proof (zq_nz L ltac:(lia)) as NZ.
  destruct (aw_sum b L x (fun k => axisWeight b t j (zq (k + firstPos b) / zq (2 ^ L))%Qc) Hb ltac:(lia) HX) as (F0 & F1 & S0 & S1 & SN & E).
  set (f := qfloor _) in *. set (s := (_ - zq f)%Qc) in *. rewrite E. clear E.
  rewrite (aw_padded b t j L f) by (auto; lia).
  assert (XE : x = ((zq f + s) / zq (2 ^ L))%Qc) by (unfold s; field; auto).
  destruct (Z.ltb_spec f (2 ^ L)) as [FL|FG].
  - rewrite (aw_padded b t j L (f + 1)) by (auto; lia). symmetry.
    pose proof (pow2_split t L ltac:(lia)) as PE. pose proof (Z.pow_pos_nonneg 2 (L - t) ltac:(lia) ltac:(lia)) as PR. pose proof (Z.pow_pos_nonneg 2 t ltac:(lia) ltac:(lia)) as PT. set (R := 2 ^ (L - t)) in *.
    assert (PRq : (0 < zq R)%Qc) by (rewrite <- zq_0; apply zq_lt; lia).
    assert (NR : zq R <> 0%Qc) by (apply zq_nz; lia). assert (NT : zq (2 ^ t) <> 0%Qc) by (apply zq_nz; lia).
    assert (SC : forall Y : Qc, (Y / zq (2 ^ L) * zq (2 ^ t) = Y / zq R)%Qc) by (intros Y; rewrite PE, zq_mul; field; auto).
    assert (LE : forall n (Y : Qc), (zq (n * R) <= Y)%Qc -> (zq n <= Y / zq R)%Qc).
    { intros n Y H. rewrite zq_mul in H. apply Qcnot_lt_le. intros C. apply (Qcmult_lt_compat_r _ _ _ PRq) in C. replace (Y / zq R * zq R)%Qc with Y in C by (field; auto). qlra. }
    assert (GE : forall n (Y : Qc), (Y <= zq ((n + 1) * R))%Qc -> (Y / zq R <= zq n + 1)%Qc).
    { intros n Y H. rewrite zq_mul, zq_add, zq_1 in H. apply Qcnot_lt_le. intros C. apply (Qcmult_lt_compat_r _ _ _ PRq) in C. replace (Y / zq R * zq R)%Qc with Y in C by (field; auto). qlra. }
    pose proof (Z.div_mod f R ltac:(lia)) as DM. pose proof (Z.mod_pos_bound f R ltac:(lia)) as MB. set (k := f / R) in *.
    assert (K1 : (zq (k * R) <= zq f)%Qc) by (apply zq_le; lia). assert (K2 : (zq f + 1 <= zq ((k + 1) * R))%Qc) by (rewrite <- zq_1, <- zq_add; apply zq_le; lia).
    apply (aw_affine b t j k); rewrite ?XE, ?SC.
    + rewrite zq_add, zq_1. field. auto.
    + now apply LE.
    + apply GE. qlra.
    + apply LE. rewrite zq_add, zq_1. qlra.
    + apply GE. rewrite zq_add, zq_1. qlra.
    + apply LE. qlra.
    + apply GE. qlra.
  - assert (f = 2 ^ L) as EF by lia. rewrite XE, (SN EF), EF. replace ((zq (2 ^ L) + 0) / zq (2 ^ L))%Qc with (zq (2 ^ L) / zq (2 ^ L))%Qc by (field; auto). ring.
Qed.

(** No surplus above the level of the hat functions. *)
Lemma aw_surplus : forall b t L m p (C : Z -> Qc) (g : arr), 0 <= b <= 2 -> 1 <= t -> 1 <= L -> 0 <= m -> m <= t -> 0 <= p <= 2 ^ L -> t < lev L p ->
  (forall k, 0 <= k < 2 ^ L + b - 1 -> g k = qsum (map (fun j => axisWeight b t j (zq (k + firstPos b) / zq (2 ^ L)) * C j)%Qc (zrange 0 (2 ^ t + b - 1)))) ->
  hatSurplus b L m g p = 0%Qc.
Proof.
  intros b t L m p C g Hb Ht HL Hm Hmt Hp HP HG. pose proof (Z.pow_pos_nonneg 2 L ltac:(lia) ltac:(lia)) as PN. pose proof (zq_nz L ltac:(lia)) as NZ.
  pose proof (lev_range L p ltac:(lia) Hp) as LR. pose proof (proj1 (lev_mod L p (lev L p) ltac:(lia) Hp) eq_refl) as MD. set (l := lev L p) in *.
  assert (P : forall q, 0 <= q <= 2 ^ L -> padded b L g q = qsum (map (fun j => axisWeight b t j (zq q / zq (2 ^ L)) * C j)%Qc (zrange 0 (2 ^ t + b - 1)))).
  { intros q Hq. rewrite (qs_ext _ (fun j => padded b L (fun k => axisWeight b t j (zq (k + firstPos b) / zq (2 ^ L))%Qc) q * C j)%Qc).
    - unfold padded. destruct (Z.eqb_spec b 0) as [->|].
      + destruct (Z.ltb_spec 0 q); cbn [andb]; [destruct (Z.ltb_spec q (2 ^ L))|]; try (rewrite qs_zero; [reflexivity|intros; ring]). apply HG. lia.
      + destruct (Z.eqb_spec b 1) as [->|]; cbn [andb]; [destruct (Z.eqb_spec q (2 ^ L))|]; apply HG; lia.
    - intros j Hj. apply zrange_In in Hj. f_equal. symmetry. apply aw_padded; auto; lia. }
  assert (WP : 0 < 2 ^ (L - l)) by (apply Z.pow_pos_nonneg; lia). set (w := 2 ^ (L - l)) in *.
  assert (EL : 2 ^ L = 2 ^ (l - 1) * (2 * w)) by (unfold w; rewrite <- (Z.pow_succ_r 2 (L - l)) by lia; rewrite <- Z.pow_add_r by lia; f_equal; lia).
  assert (PM : 0 < 2 ^ (l - 1)) by (apply Z.pow_pos_nonneg; lia).
  pose proof (Z.div_mod p (2 * w) ltac:(lia)) as DM. rewrite MD in DM. pose proof (Z.div_pos p (2 * w) ltac:(lia) ltac:(lia)) as Q0. set (q := p / (2 * w)) in *.
  assert (RW : 0 <= p - w /\ p + w <= 2 ^ L /\ 0 < p < 2 ^ L).
  { set (M := 2 ^ (l - 1)) in *. assert (q < M) by nia. nia. }
  unfold hatSurplus. cbv zeta. fold l w. destruct (Z.ltb_spec 0 p); [|lia]. destruct (Z.ltb_spec p (2 ^ L)); [|lia]. destruct (Z.ltb_spec m l); [|lia]. cbn [andb].
  rewrite !P by lia. rewrite <- qs_plus, <- qs_scale.
  rewrite (qs_ext (fun j => axisWeight b t j (zq p / zq (2 ^ L)) * C j)%Qc (fun x => qhalf * (axisWeight b t x (zq (p - w)%Z / zq (2 ^ L)) * C x + axisWeight b t x (zq (p + w)%Z / zq (2 ^ L)) * C x))%Qc); [ring|].
  intros j Hj. apply zrange_In in Hj.
  pose proof (pow2_split t L ltac:(lia)) as PE. pose proof (Z.pow_pos_nonneg 2 (L - t) ltac:(lia) ltac:(lia)) as PR. set (R := 2 ^ (L - t)) in *.
  assert (ER : R = 2 ^ (l - 1 - t) * (2 * w)) by (unfold w, R; rewrite <- (Z.pow_succ_r 2 (L - l)) by lia; rewrite <- Z.pow_add_r by lia; f_equal; lia).
  assert (PM' : 0 < 2 ^ (l - 1 - t)) by (apply Z.pow_pos_nonneg; lia). set (M := 2 ^ (l - 1 - t)) in *.
  assert (PRq : (0 < zq R)%Qc) by (rewrite <- zq_0; apply zq_lt; lia).
  assert (NR : zq R <> 0%Qc) by (apply zq_nz; lia). assert (NT : zq (2 ^ t) <> 0%Qc) by (apply zq_nz; lia).
  assert (SC : forall Y : Qc, (Y / zq (2 ^ L) * zq (2 ^ t) = Y / zq R)%Qc) by (intros Y; rewrite PE, zq_mul; field; auto).
  assert (LE : forall n z, n * R <= z -> (zq n <= zq z / zq R)%Qc).
  { intros n z Hz. apply zq_le in Hz. rewrite zq_mul in Hz. apply Qcnot_lt_le. intros X. apply (Qcmult_lt_compat_r _ _ _ PRq) in X. replace (zq z / zq R * zq R)%Qc with (zq z) in X by (field; auto). qlra. }
  assert (GE : forall n z, z <= (n + 1) * R -> (zq z / zq R <= zq n + 1)%Qc).
  { intros n z Hz. apply zq_le in Hz. rewrite zq_mul, zq_add, zq_1 in Hz. apply Qcnot_lt_le. intros X. apply (Qcmult_lt_compat_r _ _ _ PRq) in X. replace (zq z / zq R * zq R)%Qc with (zq z) in X by (field; auto). qlra. }
  pose proof (Z.div_mod q M ltac:(lia)) as DM2. pose proof (Z.mod_pos_bound q M ltac:(lia)) as MB. set (k := q / M) in *.
  assert (KL : k * R <= p - w) by (rewrite ER; nia). assert (KU : p + w <= (k + 1) * R) by (rewrite ER; nia).
  assert (HH : (1 - qhalf = qhalf)%Qc) by (apply Qc_is_canon; reflexivity). assert (H2 : (qhalf * (1 + 1) = 1)%Qc) by (apply Qc_is_canon; reflexivity).
  rewrite (aw_affine b t j k qhalf (zq (p - w) / zq (2 ^ L)) (zq (p + w) / zq (2 ^ L)) (zq p / zq (2 ^ L)))%Qc; rewrite ?SC.
  - rewrite HH. ring.
  - rewrite HH, zq_sub, zq_add. transitivity ((qhalf * (1 + 1)) * (zq p / zq (2 ^ L)))%Qc; [rewrite H2; ring|field; auto].
  - apply LE. lia.
  - apply GE. lia.
  - apply LE. lia.
  - apply GE. lia.
  - apply LE. lia.
  - apply GE. lia.
Qed.

(** ** All dimensions *)
Lemma interpolant_sum : forall (A : Type) levels bs (l : list A) (c : A -> Qc) (F : A -> list Z -> Qc) xs,
  interpolant levels bs (fun v => qsum (map (fun a => c a * F a v)%Qc l)) xs = qsum (map (fun a => c a * interpolant levels bs (F a) xs)%Qc l).
Proof.
  intros A levels bs l c F xs. unfold interpolant.
  rewrite (qs_ext _ (fun v => qsum (map (fun a => pointWeight bs levels v xs * (c a * F a v))%Qc l))) by (intros; now rewrite qs_scale).
  rewrite qs_swap. apply qs_ext. intros a _. rewrite <- qs_scale. apply qs_ext. intros; ring.
Qed.
Lemma sampled_sum : forall (A : Type) levels bs (l : list A) (c : A -> Qc) (F : A -> list Qc -> Qc) xs,
  sampled levels bs (fun ys => qsum (map (fun a => c a * F a ys)%Qc l)) xs = qsum (map (fun a => c a * sampled levels bs (F a) xs)%Qc l).
Proof. intros. unfold sampled. apply (interpolant_sum A levels bs l c (fun a v => F a (pointCoords bs levels v))). Qed.

Lemma sampled_interp_cons : forall L levels b bs t u G x xs, 1 <= L -> 1 <= t ->
  sampled (L :: levels) (b :: bs) (interpolant (t :: u) (b :: bs) G) (x :: xs) =
  qsum (map (fun j => qsum (map (fun k => axisWeight b L k x * axisWeight b t j (zq (k + firstPos b) / zq (2 ^ L)))%Qc (zrange 0 (2 ^ L + b - 1))) *
     sampled levels bs (interpolant u bs (fun v => G (j :: v))) xs)%Qc (zrange 0 (2 ^ t + b - 1))).
Proof.
  intros L levels b bs t u G x xs HL Ht. unfold sampled at 1. rewrite interpolant_cons by lia.
  rewrite (qs_ext _ (fun k => qsum (map (fun j => axisWeight b L k x * axisWeight b t j (zq (k + firstPos b) / zq (2 ^ L)) * sampled levels bs (interpolant u bs (fun v => G (j :: v))) xs)%Qc (zrange 0 (2 ^ t + b - 1))))).
  - rewrite qs_swap. apply qs_ext. intros j _. rewrite Qcmult_comm, <- qs_scale. apply qs_ext. intros; ring.
  - intros k _. cbn [pointCoords].
    transitivity (axisWeight b L k x * sampled levels bs (fun ys => qsum (map (fun j => axisWeight b t j (zq (k + firstPos b) / zq (2 ^ L)) * interpolant u bs (fun v => G (j :: v)) ys)%Qc (zrange 0 (2 ^ t + b - 1)))) xs)%Qc.
    + f_equal. unfold sampled, interpolant at 1 3. apply qs_ext. intros v _. f_equal. now apply interpolant_cons.
    + rewrite (sampled_sum Z levels bs _ (fun j => axisWeight b t j (zq (k + firstPos b) / zq (2 ^ L))%Qc) (fun j => interpolant u bs (fun v => G (j :: v)))), <- qs_scale. apply qs_ext. intros; cbv beta; ring.
Qed.
(** The interpolant on grid [u], sampled on another grid, is the one sampled on the common part of both. *)
Lemma sampled_interp_min : forall u bs levels G xs, length bs = length u -> length levels = length u -> Forall (Z.le 1) u -> Forall (Z.le 1) levels ->
  Forall (fun b => 0 <= b <= 2) bs -> Forall2 inDomain bs xs ->
  sampled levels bs (interpolant u bs G) xs = sampled (map2 Z.min levels u) bs (interpolant u bs G) xs.
Proof.
  induction u as [|t u IH]; intros [|b bs] [|L levels] G xs LB LL HU HL HB HX; try discriminate; [reflexivity|]. inversion HX as [|? x ? xs' Hx HX']; subst. inversion HU; inversion HL; inversion HB; subst. cbn [map2 length] in *.
  rewrite !sampled_interp_cons by lia. apply qs_ext. intros j Hj. apply zrange_In in Hj. rewrite <- (IH bs levels) by (auto; lia). destruct (Z.le_gt_cases t L).
  - replace (Z.min L t) with t by lia. rewrite !aw_refine by (auto; lia). reflexivity.
  - replace (Z.min L t) with L by lia. reflexivity.
Qed.
Lemma sampled_interp_self : forall u bs G xs, length bs = length u -> Forall (Z.le 1) u ->
  Forall (fun b => 0 <= b <= 2) bs -> Forall2 inDomain bs xs -> sampled u bs (interpolant u bs G) xs = interpolant u bs G xs.
Proof.
  induction u as [|t u IH]; intros [|b bs] G xs LB HU HB HX; try discriminate.
  - inversion HX; subst. unfold sampled, interpolant. cbn. repeat change (qsum [?q]) with (q + 0)%Qc. ring.
  - inversion HX as [|? x ? xs' Hx HX']; subst. inversion HU; inversion HB; subst. cbn [length] in *.
    rewrite sampled_interp_cons by lia. rewrite interpolant_cons by lia. apply qs_ext. intros j Hj. apply zrange_In in Hj. rewrite aw_refine by (auto; lia). rewrite IH by (auto; lia). reflexivity.
Qed.
(** The combination is exact for piecewise multilinear functions of any of the grids, everywhere. *)
Lemma combination_exact : forall (A : Type) (c : A -> Qc) (lev : A -> list Z) (us : list A) u bs G xs, length bs = length u -> Forall (Z.le 1) u ->
  Forall (fun b => 0 <= b <= 2) bs -> Forall2 inDomain bs xs ->
  (forall t, In t us -> length (lev t) = length u /\ Forall (Z.le 1) (lev t)) ->
  (forall m, Forall2 (fun a b => 1 <= a <= b) m u -> qsum (map (fun t => if vleb m (lev t) then c t else 0%Qc) us) = 1%Qc) ->
  qsum (map (fun t => c t * sampled (lev t) bs (interpolant u bs G) xs)%Qc us) = interpolant u bs G xs.
Proof.
  intros A c lev us u bs G xs LB HU HB HX HL HM. rewrite (qs_ext _ (fun t => c t * (fun m => sampled m bs (interpolant u bs G) xs) (map2 Z.min (lev t) u))%Qc).
  - rewrite (unity_sum A u c lev us (fun m => sampled m bs (interpolant u bs G) xs)); auto. now apply sampled_interp_self.
  - intros t Ht. destruct (HL t Ht). now rewrite (sampled_interp_min u).
Qed.

(** At its own points the interpolant has the values of the grid. *)
Lemma interpolant_point : forall u bs G w, length bs = length u -> length w = length u -> 
  (forall i, (i < length u)%nat -> 0 <= nth i bs 0 <= 2 /\ 1 <= nth i u 0 /\ 0 <= nth i w 0 < 2 ^ nth i u 0 + nth i bs 0 - 1) -> interpolant u bs G (pointCoords bs u w) = G w.
Proof.
  induction u as [|t u IH]; intros [|b bs] G [|j w] LB LW H; try discriminate.
  - unfold interpolant. cbn. change (qsum [?q]) with (q + 0)%Qc. ring.
  - cbn [pointCoords length] in *. pose proof (H 0%nat ltac:(lia)) as (A & B & C). cbn [nth] in A, B, C. rewrite interpolant_cons by lia. pose proof (zq_nz t ltac:(lia)).
    rewrite (axis_collapse b t j _ (fun j0 => interpolant u bs (fun v => G (j0 :: v)) (pointCoords bs u w))) by (auto; field; auto).
    apply (IH bs (fun v => G (j :: v)) w); try lia. intros i Hi. apply (H (S i)). lia.
Qed.
