(** Mass (integral of the piecewise multilinear interpolant) of grids under hierarchization in several dimensions. *)
From Verif Require Import Base TensorModel TensorProofs PartitionModel PartitionProofs DecompModel DecompProofs DofModel DofProofs Level1dModel
  Level1dProofs SubspaceModel SubspaceProofs Hier1dModel Hier1dProofs HierMassProofs Hier1dProps DistHierModel DistHierProofs DistExchangeProofs
  DistPoleProofs HierNDModel HierNDProofs HierLinProofs HierNDProps.
From Coq Require Import QArith Qcanon.
Open Scope Z_scope.
Ltac Zify.zify_post_hook ::= idtac.

(** Trapezoidal weight of point [i] of a one-dimensional grid: mesh width, halved for the two end points of a grid with both boundary points. *)
Definition weight1 (b L i : Z) : Qc := (if (b =? 2) && ((i =? 0) || (i =? 2 ^ L)) then qhalf / qz (2 ^ L) else 1 / qz (2 ^ L))%Qc.
Definition mass1 (b L : Z) (g : arr) : Qc := qsum (map (fun i => weight1 b L i * g i)%Qc (zrange 0 (2 ^ L + b - 1))).

(** All points of a grid with the given sizes. *)
Fixpoint gridPoints (sizes : list Z) : list (list Z) :=
  match sizes with
  | [] => [[]]
  | s :: r => flat_map (fun i => map (cons i) (gridPoints r)) (zrange 0 s)
  end.
(** The product of the weights. *)
Fixpoint weight (bs ls w : list Z) : Qc :=
  match bs, ls, w with
  | b :: bs', L :: ls', i :: w' => (weight1 b L i * weight bs' ls' w')%Qc
  | _, _, _ => 1%Qc
  end.
Definition sizesOf (bs ls : list Z) : list Z := map2 (fun L b => 2 ^ L + b - 1) ls bs.
(** Integral over the unit cube of the multilinear interpolant of [G]; a one-sided grid is continued periodically. *)
Definition gridMass (bs ls : list Z) (G : list Z -> Qc) : Qc :=
  qsum (map (fun w => weight bs ls w * G w)%Qc (gridPoints (sizesOf bs ls))).

Lemma gridPoints_In : forall sizes w, In w (gridPoints sizes) <-> inBox sizes w.
Proof.
  induction sizes as [|s r IH]; intros w; cbn [gridPoints].
  - split; [intros [<-|[]]; constructor|intros H; inversion H; now left].
  - rewrite in_flat_map. split.
    + intros (i & Hi & Hw). apply in_map_iff in Hw. destruct Hw as (w' & <- & Hw). apply zrange_In in Hi. constructor; [lia|]. now apply IH.
    + intros H. inversion H as [|? i ? w' Hi Hw]; subst. exists i. split; [now apply zrange_In|]. apply in_map. now apply IH.
Qed.

(** ** One dimension *)

Lemma qz_add : forall a b, qz (a + b) = (qz a + qz b)%Qc.
Proof. intros a b. unfold qz. apply Qc_is_canon. cbn [this Q2Qc Qcplus]. rewrite !Qred_correct. unfold Qeq, inject_Z, Qplus. cbn. lia. Qed.
Lemma qz_mul : forall a b, qz (a * b) = (qz a * qz b)%Qc.
Proof. intros a b. unfold qz. apply Qc_is_canon. cbn [this Q2Qc Qcmult]. rewrite !Qred_correct. unfold Qeq, inject_Z, Qmult. cbn. lia. Qed.
Lemma qz_inj : forall a b, qz a = qz b -> a = b.
Proof. intros a b H. unfold qz in H. apply (f_equal this) in H. cbn [this Q2Qc] in H. assert (E : (inject_Z a == inject_Z b)%Q) by (rewrite <- (Qred_correct (inject_Z a)), H; apply Qred_correct). unfold Qeq, inject_Z in E. cbn in E. lia. Qed.
Lemma qz_pow_neq : forall L, 0 <= L -> qz (2 ^ L) <> 0%Qc.
Proof. intros L HL X. change 0%Qc with (qz 0) in X. apply qz_inj in X. pose proof (pow2_pos L HL). lia. Qed.
Lemma qpow2_qz : forall n, qpow2 n = qz (2 ^ Z.of_nat n).
Proof.
  induction n as [|n IH]; [reflexivity|]. replace (2 ^ Z.of_nat (S n)) with (2 * 2 ^ Z.of_nat n) by (replace (Z.of_nat (S n)) with (Z.succ (Z.of_nat n)) by lia; rewrite Z.pow_succ_r; lia).
  rewrite qz_mul, <- IH. unfold qpow2. cbn [Qcpower]. f_equal.
Qed.

(** The trapezoidal sum as the sum over the intervals. *)
Lemma mass1_trap : forall b L w u, 1 <= b <= 2 -> 0 <= L -> (b = 1 -> u 0 = u (2 ^ L * w)) ->
  mass1 b L (fun j => u (j * w)) = (qhalf * trap w (Z.to_nat (2 ^ L)) u / qz (2 ^ L))%Qc.
Proof.
  intros b L w u Hb HL HP. pose proof (pow2_pos L HL) as P. unfold mass1, trap.
  replace (zseq 0 (Z.to_nat (2 ^ L))) with (zrange 0 (2 ^ L)) by (unfold zrange; do 2 f_equal; lia).
  rewrite qsum_map_plus.
  set (N := 2 ^ L) in *. set (s := qsum (map (fun k => u (k * w)%Z) (zrange 0 N))).
  assert (E1 : (qsum (map (fun k => u ((k + 1) * w)%Z) (zrange 0 N)) = s + (u (N * w)%Z - u 0%Z))%Qc).
  { unfold s. pose proof (qsum_telescope (Z.to_nat N) (fun k => u (k * w)%Z)) as T.
    replace (zseq 0 (Z.to_nat N)) with (zrange 0 N) in T by (unfold zrange; do 2 f_equal; lia).
    rewrite Z2Nat.id in T by lia. rewrite Z.mul_0_l in T. rewrite <- T.
    assert (forall (f g : Z -> Qc) l, (qsum (map f l) = qsum (map g l) + qsum (map (fun k => f k - g k) l))%Qc) as X.
    { intros f g l. induction l as [|a l IH]; [cbn; ring|]. cbn [map]. change (qsum (?a :: ?b)) with (a + qsum b)%Qc. rewrite IH. ring. }
    rewrite (X _ (fun k => u (k * w)%Z)). reflexivity. }
  rewrite E1.
  assert (D : forall x, (1 / qz N * x = x / qz N)%Qc) by (intros; unfold Qcdiv; ring).
  destruct (Z.eq_dec b 1) as [->|B].
  - rewrite <- (HP eq_refl). replace (N + 1 - 1) with N by lia.
    transitivity (s / qz N)%Qc; [|assert (H2 : (s + (s + (u 0%Z - u 0%Z)) = (1 + 1) * s)%Qc) by ring; rewrite H2; unfold Qcdiv; assert (Hh : (qhalf * (1 + 1) = 1)%Qc) by (apply Qc_is_canon; vm_compute; reflexivity); transitivity ((qhalf * (1 + 1)) * s * / qz N)%Qc; [rewrite Hh; ring|ring]].
    rewrite <- D. unfold s. rewrite <- qsum_map_scale. reflexivity.
  - assert (b = 2) by lia. subst b. replace (N + 2 - 1) with (N + 1) by lia. rewrite zrange_snoc by lia. replace (N + 1 - 1) with N by lia.
    rewrite map_app, qsum_app. cbn [map]. unfold weight1 at 2. fold N. rewrite (Z.eqb_refl N), orb_true_r. cbn [Z.eqb Pos.eqb andb].
    change (qsum [?a]) with (a + 0)%Qc.
    rewrite (zrange_cons 0 N) in * by lia. unfold s in *. rewrite (zrange_cons 0 N) by lia. cbn [map]. unfold weight1 at 1. cbn [Z.eqb Pos.eqb orb andb]. fold N. rewrite Z.mul_0_l.
    change (qsum (?a :: ?b)) with (a + qsum b)%Qc. change (qsum (?a :: ?b)) with (a + qsum b)%Qc.
    rewrite (qsum_map_ext (fun i => weight1 2 L i * u (i * w)%Z)%Qc (fun i => 1 / qz N * u (i * w)%Z)%Qc).
    2: { intros k Hk. apply zrange_In in Hk. unfold weight1. fold N. destruct (Z.eqb_spec k 0); [lia|]. destruct (Z.eqb_spec k N); [lia|]. reflexivity. }
    rewrite qsum_map_scale. set (r := qsum _).
    assert (Hh : (qhalf * (1 + 1) = 1)%Qc) by (apply Qc_is_canon; vm_compute; reflexivity).
    transitivity ((qhalf * u 0%Z + (qhalf * (1 + 1)) * r + qhalf * u (N * w)%Z) / qz N)%Qc; [rewrite Hh; unfold Qcdiv; ring|unfold Qcdiv; ring].
Qed.

(** Bases that keep the mass, with the boundary they are made for. *)
Definition conservative1 (f : basis) (b : Z) : Prop :=
  (b = 2 /\ (f = FullWeighting \/ f = Biorthogonal)) \/ (b = 1 /\ (f = FullWeightingPeriodic \/ f = BiorthogonalPeriodic)).

Lemma kernel_mass : forall f b L m a, conservative1 f b -> 0 <= m <= L -> L <= 28 -> (b = 1 -> a 0 = a (2 ^ L)) ->
  (qpow2 (Z.to_nat (L - m)) * trap (2 ^ (L - m)) (Z.to_nat (2 ^ m)) (hierKernel f L m a) = trap 1 (Z.to_nat (2 ^ L)) a)%Qc.
Proof.
  intros f b L m a [(-> & [-> | ->])|(-> & [-> | ->])] Hm HL HP; cbn [hierKernel].
  - apply (fwHier_mass false); auto. discriminate.
  - apply (fwHier_mass false); auto. discriminate.
  - apply (fwHier_mass true); auto. intros _. auto.
  - apply (bioHier_mass true); auto. intros _. auto.
Qed.

(** The hierarchized values on the coarsest level carry the mass. *)
Lemma poleOp_mass : forall f b L m n g, conservative1 f b -> 0 <= m <= L -> 1 <= L <= 28 -> n = 2 ^ L + b - 1 ->
  mass1 b L g = mass1 b m (fun j => poleOp f false b L m n g (j * 2 ^ (L - m))).
Proof.
  intros f b L m n g HF Hm HL Hn. assert (Hb : 1 <= b <= 2) by (destruct HF as [(-> & _)|(-> & _)]; lia).
  pose proof (pow2_pos L ltac:(lia)) as P. pose proof (pow2_pos m ltac:(lia)) as Pm. pose proof (pow2_pos (L - m) ltac:(lia)) as Pd.
  assert (EP : 2 ^ L = 2 ^ m * 2 ^ (L - m)) by (rewrite <- Z.pow_add_r by lia; f_equal; lia).
  unfold poleOp, hierPole. destruct (Z.geb_spec m L) as [E|E].
  { assert (m = L) as -> by lia. unfold mass1. apply qsum_map_ext. intros k _. do 2 f_equal. rewrite Z.sub_diag, Z.pow_0_r. lia. }
  rewrite (proj2 (Z.gtb_lt b 0)) by lia.
  pose proof (loadPole_serial b L n (fun _ => 0%Qc) g ltac:(lia) ltac:(lia) Hn) as LS. set (ld := loadPole b n 0 n (fun _ => 0%Qc) [] g) in *.
  assert (PL : b = 1 -> ld 0 = ld (2 ^ L)).
  { intros B. rewrite (LS 0), (LS (2 ^ L)) by (unfold onRange; lia). rewrite (proj2 (Z.eqb_eq b 1) B), (Z.eqb_refl (2 ^ L)). destruct (true && (0 =? 2 ^ L)); reflexivity. }
  transitivity (mass1 b L (fun j => ld (j * 1))).
  { unfold mass1. apply qsum_map_ext. intros k Hk. apply zrange_In in Hk. f_equal. rewrite Z.mul_1_r, (LS k) by (unfold onRange; lia).
    destruct (Z.eqb_spec b 1); cbn [andb]; auto. destruct (Z.eqb_spec k (2 ^ L)); auto; lia. }
  rewrite mass1_trap by (auto; try lia; intros B; rewrite Z.mul_1_r; auto).
  assert (KE : b = 1 -> hierKernel f L m ld 0 = hierKernel f L m ld (2 ^ m * 2 ^ (L - m))).
  { intros B. rewrite <- EP. apply kernel_ends; auto; try lia. destruct HF as [(X & _)|(_ & [-> | ->])]; auto; lia. }
  rewrite (mass1_trap b m (2 ^ (L - m)) (hierKernel f L m ld)) by (auto; lia).
  rewrite <- (kernel_mass f b L m ld HF) by (auto; lia). rewrite qpow2_qz, Z2Nat.id by lia.
  rewrite EP at 1. rewrite qz_mul. pose proof (qz_pow_neq m ltac:(lia)). pose proof (qz_pow_neq (L - m) ltac:(lia)). field. auto.
Qed.

Lemma poleOp_mass' : forall f b L m n h, conservative1 f b -> 0 <= m <= L -> 1 <= L <= 28 -> n = 2 ^ L + b - 1 ->
  mass1 b L (poleOp f true b L m n h) = mass1 b m (fun j => h (j * 2 ^ (L - m))).
Proof.
  intros f b L m n h HF Hm HL Hn. assert (Hb : 1 <= b <= 2) by (destruct HF as [(-> & _)|(-> & _)]; lia).
  rewrite (poleOp_mass f b L m n) by auto. unfold mass1. apply qsum_map_ext. intros k Hk. apply zrange_In in Hk. f_equal.
  pose proof (pow2_pos m ltac:(lia)) as Pm. pose proof (pow2_pos (L - m) ltac:(lia)) as Pd.
  assert (EP : 2 ^ L = 2 ^ m * 2 ^ (L - m)) by (rewrite <- Z.pow_add_r by lia; f_equal; lia).
  set (j := k * 2 ^ (L - m)). assert (Hj : 0 <= j < n).
  { unfold j. destruct (Z.eq_dec b 1) as [->|]; [nia|]. assert (b = 2) by lia. subst b. nia. }
  unfold poleOp, hierPole, dehierPole.
  destruct (m >=? L) eqn:EG; auto. rewrite (proj2 (Z.gtb_lt b 0)) by lia.
  destruct (pole_roundtrip f b L m n (fun _ => 0%Qc) (fun _ => 0%Qc) h (dehierKernel f L m (loadPole b n 0 n (fun _ => 0%Qc) [] h)) ltac:(lia) HL ltac:(lia) Hn) as [_ R].
  - destruct HF as [(-> & [-> | ->])|(-> & [-> | ->])]; split; try lia; split; auto; try lia; intros _ [X|X]; discriminate X.
  - apply (R (hierKernel f L m (loadPole b n 0 n (fun _ => 0%Qc) [] (dehierKernel f L m (loadPole b n 0 n (fun _ => 0%Qc) [] h))))); auto.
    + unfold dehierPole. rewrite EG, (proj2 (Z.gtb_lt b 0)) by lia. reflexivity.
    + unfold hierPole. rewrite EG, (proj2 (Z.gtb_lt b 0)) by lia. reflexivity.
Qed.

(** ** Several dimensions *)

Definition funAt (k : nat) (F : arr -> Qc) (G : list Z -> Qc) : list Z -> Qc := fun v => F (fun i => G (upd v k i)).
Definition nest (F : nat -> arr -> Qc) (ks : list nat) (G : list Z -> Qc) : list Z -> Qc := fold_right (fun k X => funAt k (F k) X) G ks.
(** The trapezoidal sum of level [l] over points with distance [c]. *)
Definition massAt (b l c : Z) (g : arr) : Qc := mass1 b l (fun j => g (j * c)).

Lemma mass1_ext : forall b l g g', (forall i, 0 <= i < 2 ^ l + b - 1 -> g i = g' i) -> mass1 b l g = mass1 b l g'.
Proof. intros b l g g' H. unfold mass1. apply qsum_map_ext. intros i Hi. apply zrange_In in Hi. now rewrite H. Qed.

Section Nest.
Variables (bs ls cs : nat -> Z).
Let F (k : nat) : arr -> Qc := massAt (bs k) (ls k) (cs k).

Lemma nest_ext : forall ks G G', (forall v, G v = G' v) -> forall v, nest F ks G v = nest F ks G' v.
Proof. induction ks as [|k ks IH]; intros G G' H v; cbn [nest fold_right]; auto. unfold funAt, F, massAt. apply mass1_ext. intros i _. now apply IH. Qed.

Lemma funAt_comm : forall n j k P G v, j <> k -> linRange n P -> 0 <= nth j v 0 < n ->
  funAt k (F k) (opAt j P G) v = opAt j P (funAt k (F k) G) v.
Proof.
  intros n j k P G v N LR Hv. unfold funAt, F, massAt, mass1, opAt.
  rewrite (linRange_sum n P LR Z (zrange 0 (2 ^ ls k + bs k - 1)) (weight1 (bs k) (ls k)) (fun x i => G (upd (upd v j i) k (x * cs k)))) by auto.
  apply qsum_map_ext. intros x _. f_equal. rewrite nth_upd_other by auto. apply (linRange_ext n P LR); auto. intros i _. now rewrite upd_comm by auto.
Qed.

Lemma nest_comm : forall n j P ks G, ~ In j ks -> linRange n P -> forall v, 0 <= nth j v 0 < n -> nest F ks (opAt j P G) v = opAt j P (nest F ks G) v.
Proof.
  intros n j P ks G N LR. induction ks as [|k ks IH]; intros v Hv; auto. cbn [nest fold_right]. fold (nest F ks (opAt j P G)). fold (nest F ks G).
  assert (NK : j <> k) by (intros ->; apply N; now left).
  rewrite <- (funAt_comm n j k P (nest F ks G) v NK LR Hv). unfold funAt, F at 1 3, massAt. apply mass1_ext. intros i _. apply IH.
  - intros X. apply N. now right.
  - now rewrite nth_upd_other by auto.
Qed.
End Nest.

(** The setup keeps the mass: every dimension is hierarchized with a conservative basis, down to the level given for it. *)
Definition conservativeCfg (c : HCfg) : Prop := forall k, (k < length (hLevels c))%nat ->
  nth k (hDims c) false = true /\ conservative1 (nth k (hBases c) Hat) (nth k (hBnds c) 0) /\ nth k (hLmin c) 0 <= nth k (hLevels c) 0 /\ 1 <= nth k (hLevels c) 0.

Lemma nest_opAll : forall c ks G v, wfCfg c -> conservativeCfg c -> NoDup ks -> (forall k, In k ks -> (k < length (hLevels c))%nat) -> inBox (hSizes c) v ->
  nest (fun k => massAt (nth k (hBnds c) 0) (nth k (hLevels c) 0) 1) ks (opAll c true ks G) v =
  nest (fun k => massAt (nth k (hBnds c) 0) (nth k (hLmin c) 0) (2 ^ (nth k (hLevels c) 0 - nth k (hLmin c) 0))) ks G v.
Proof.
  intros c ks. induction ks as [|k ks IH]; intros G v HW HC ND Hks Hv; auto. inversion ND as [|? ? NI ND']; subst.
  assert (Ks : forall k, In k ks -> (k < length (hLevels c))%nat) by (intros; apply Hks; now right).
  assert (Hk : (k < length (hLevels c))%nat) by (apply Hks; now left).
  cbn [opAll fold_left]. fold (opAll c true ks (dimOp c true k G)). cbn [nest fold_right].
  match goal with |- funAt k ?A (fold_right _ _ ks) v = funAt k ?B ?X v => change (funAt k A (nest (fun k => massAt (nth k (hBnds c) 0) (nth k (hLevels c) 0) 1) ks (opAll c true ks (dimOp c true k G))) v =
    funAt k B (nest (fun k => massAt (nth k (hBnds c) 0) (nth k (hLmin c) 0) (2 ^ (nth k (hLevels c) 0 - nth k (hLmin c) 0))) ks G) v) end.
  set (C := nest (fun k => massAt (nth k (hBnds c) 0) (nth k (hLmin c) 0) (2 ^ (nth k (hLevels c) 0 - nth k (hLmin c) 0))) ks) in *.
  unfold funAt, massAt.
  pose proof (n_formula c k HW Hk) as Hn. pose proof (cfg_lin c true k HW Hk) as LR.
  destruct (HC k Hk) as (D & CB & LM & L1). pose proof HW as (_ & _ & _ & _ & HP). destruct (HP k Hk) as (H1 & H2 & H3 & _). clear HP.
  assert (Lv : length v = length (hLevels c)) by (apply inBox_length in Hv; rewrite sizes_length in Hv; auto).
  transitivity (mass1 (nth k (hBnds c) 0) (nth k (hLevels c) 0) (fun j => C (dimOp c true k G) (upd v k j))).
  { apply mass1_ext. intros i Hi. rewrite Z.mul_1_r. apply IH; auto. apply upd_inBox; auto. lia. }
  set (b := nth k (hBnds c) 0) in *. set (L := nth k (hLevels c) 0) in *. set (m := nth k (hLmin c) 0) in *. set (n := nth k (hSizes c) 0) in *. set (f := nth k (hBases c) Hat) in *.
  destruct (active c k) eqn:Ea.
  - transitivity (mass1 b L (poleOp f true b L m n (fun i => C G (upd v k i)))); [|apply poleOp_mass'; auto; lia].
    apply mass1_ext. intros i Hi.
    transitivity (opAt k (poleOp f true b L m n) (C G) (upd v k i)).
    + etransitivity; [|exact (nest_comm (fun k => nth k (hBnds c) 0) (fun k => nth k (hLmin c) 0) (fun k => 2 ^ (nth k (hLevels c) 0 - nth k (hLmin c) 0)) n k (poleOp f true b L m n) ks G NI LR
        (upd v k i) ltac:(rewrite nth_upd_same by lia; lia))].
      apply (nest_ext (fun k => nth k (hBnds c) 0) (fun k => nth k (hLmin c) 0) (fun k => 2 ^ (nth k (hLevels c) 0 - nth k (hLmin c) 0))). intros x. now rewrite (dimOp_opAt c true k G x Ea).
    + unfold opAt. rewrite nth_upd_same by lia. apply (linRange_ext n _ LR); [|lia]. intros j _. now rewrite upd_upd.
  - assert (m = L) as E.
    { unfold active in Ea. rewrite D in Ea. cbn [andb] in Ea. apply Z.ltb_ge in Ea. unfold m, L in *. lia. }
    rewrite E. apply mass1_ext. intros i Hi. rewrite Z.sub_diag, Z.pow_0_r, Z.mul_1_r.
    apply (nest_ext (fun k => nth k (hBnds c) 0) (fun k => nth k (hLmin c) 0) (fun k => 2 ^ (nth k (hLevels c) 0 - nth k (hLmin c) 0))). intros x. unfold dimOp. now rewrite Ea.
Qed.

Lemma gridMass_cons : forall b bs l ls G, gridMass (b :: bs) (l :: ls) G = mass1 b l (fun i => gridMass bs ls (fun w => G (i :: w))).
Proof.
  intros b bs l ls G. unfold gridMass, mass1, sizesOf. cbn [map2 gridPoints].
  set (P := gridPoints _). generalize (zrange 0 (2 ^ l + b - 1)). intros r. induction r as [|i r IH]; auto.
  cbn [flat_map]. rewrite map_app, qsum_app, IH. cbn [map]. change (qsum (?a :: ?b)) with (a + qsum b)%Qc. f_equal.
  clear. induction P as [|w P IH]; [cbn; ring|]. cbn [map]. change (qsum (?a :: ?b)) with (a + qsum b)%Qc. rewrite IH. cbn [weight]. ring.
Qed.

Lemma gridMass_ext : forall bs ls G G', (forall w, inBox (sizesOf bs ls) w -> G w = G' w) -> gridMass bs ls G = gridMass bs ls G'.
Proof. intros bs ls G G' H. unfold gridMass. f_equal. apply map_ext_in. intros w Hw. apply gridPoints_In in Hw. now rewrite H. Qed.

Lemma nest_gridMass : forall ls bs cs pre rest G F, length bs = length ls -> length cs = length ls -> length rest = length ls ->
  (forall i g, (i < length ls)%nat -> F (length pre + i)%nat g = massAt (nth i bs 0) (nth i ls 0) (nth i cs 0) g) ->
  nest F (seq (length pre) (length ls)) G (pre ++ rest) = gridMass bs ls (fun w => G (pre ++ map2 Z.mul w cs)).
Proof.
  induction ls as [|l ls IH]; intros [|b bs] [|c cs] pre [|x rest] G F E1 E2 E3 HF; cbn [length] in *; try discriminate.
  - unfold gridMass, sizesOf, qsum. cbn. ring.
  - rewrite gridMass_cons. cbn [seq nest fold_right]. fold (nest F (seq (S (length pre)) (length ls)) G). unfold funAt.
    pose proof (HF 0%nat) as H0. rewrite Nat.add_0_r in H0. rewrite H0 by lia. cbn [nth]. unfold massAt. apply mass1_ext. intros i Hi.
    rewrite upd_split. replace (pre ++ i * c :: rest) with ((pre ++ [i * c]) ++ rest) by (now rewrite <- app_assoc).
    replace (S (length pre)) with (length (pre ++ [i * c])) by (rewrite app_length; cbn; lia). rewrite (IH bs cs); try lia.
    + apply gridMass_ext. intros w _. now rewrite <- app_assoc.
    + intros j g Hj. rewrite app_length. cbn [length]. replace (length pre + 1 + j)%nat with (length pre + S j)%nat by lia. rewrite HF by lia. reflexivity.
Qed.

(** The distances of the points of level [hLmin]. *)
Definition coarseSteps (c : HCfg) : list Z := map2 (fun L m => 2 ^ (L - m)) (hLevels c) (hLmin c).

Lemma sizesOf_cfg : forall c, wfCfg c -> sizesOf (hBnds c) (hLevels c) = hSizes c.
Proof.
  intros c HW. pose proof HW as (_ & LB & _). apply (nth_ext _ _ 0 0); unfold sizesOf.
  - rewrite map2_length, sizes_length by (auto; lia). reflexivity.
  - intros k Hk. rewrite map2_length in Hk by lia. rewrite (map2_nth _ _ _ _ _ _ k 0 0) by lia. now rewrite (n_formula c k HW Hk).
Qed.

Lemma mul_ones : forall (w cs : list Z), length cs = length w -> Forall (eq 1) cs -> map2 Z.mul w cs = w.
Proof. induction w as [|x w IH]; intros [|c cs] H F; auto; try discriminate. inversion F; subst. cbn [map2]. rewrite IH, Z.mul_1_r; auto. Qed.

Lemma nth_repeat_lt : forall (x d : Z) n i, (i < n)%nat -> nth i (repeat x n) d = x.
Proof. induction n as [|n IH]; intros i Hi; [lia|]. destruct i; cbn; auto. apply IH. lia. Qed.

Theorem gridMass_nodal : forall c G, wfCfg c -> conservativeCfg c ->
  gridMass (hBnds c) (hLevels c) (opAll c true (seq 0 (length (hLevels c))) G) = gridMass (hBnds c) (hLmin c) (fun w => G (map2 Z.mul w (coarseSteps c))).
Proof.
  intros c G HW HC. pose proof HW as (_ & LB & LM & _). set (d := length (hLevels c)) in *.
  assert (I : inBox (hSizes c) (repeat 0 d)).
  { apply inBox_nth. rewrite repeat_length, sizes_length by auto. split; auto. intros i Hi. fold d in Hi.
    destruct (dec_valid c HW i Hi) as [_ V]. pose proof (validDec1_nonempty _ _ V) as [Hl E]. destruct V as (_ & _ & V). specialize (V 0%nat Hl). rewrite nth_repeat. lia. }
  pose proof (nest_opAll c (seq 0 d) G (repeat 0 d) HW HC (seq_NoDup _ _) (seq_dims c) I) as N.
  pose proof (nest_gridMass (hLevels c) (hBnds c) (repeat 1 d) [] (repeat 0 d) (opAll c true (seq 0 d) G)
    (fun k => massAt (nth k (hBnds c) 0) (nth k (hLevels c) 0) 1) LB ltac:(now rewrite repeat_length) ltac:(now rewrite repeat_length)) as A.
  cbn [length app Nat.add] in A. fold d in A. rewrite A in N.
  2: { intros i g Hi. f_equal. symmetry. apply nth_repeat_lt. exact Hi. }
  pose proof (nest_gridMass (hLmin c) (hBnds c) (coarseSteps c) [] (repeat 0 d) G
    (fun k => massAt (nth k (hBnds c) 0) (nth k (hLmin c) 0) (2 ^ (nth k (hLevels c) 0 - nth k (hLmin c) 0))) ltac:(lia)) as B.
  cbn [length app Nat.add] in B. rewrite LM in B. rewrite B in N.
  - rewrite <- N. apply gridMass_ext. intros w Hw. apply inBox_length in Hw. rewrite sizesOf_cfg, sizes_length in Hw by auto. fold d in Hw.
    rewrite mul_ones; auto; [rewrite repeat_length; lia|]. apply Forall_forall. intros x Hx. apply repeat_spec in Hx. auto.
  - unfold coarseSteps. rewrite map2_length; lia.
  - now rewrite repeat_length.
  - intros i g Hi. unfold coarseSteps. rewrite (map2_nth _ _ _ _ _ _ i 0 0) by lia. reflexivity.
Qed.

Lemma conservative_suitable : forall c G, conservativeCfg c -> suitableGrid c G.
Proof.
  intros c G HC k v Hk _ _. destruct (HC k Hk) as (_ & CB & _).
  destruct CB as [(-> & [-> | ->])|(-> & [-> | ->])]; split; try lia; split; auto; try lia; intros _ [X|X]; discriminate X.
Qed.

Theorem gridMass_surplus : forall c G, wfCfg c -> conservativeCfg c ->
  gridMass (hBnds c) (hLevels c) G = gridMass (hBnds c) (hLmin c) (fun w => opAll c false (seq 0 (length (hLevels c))) G (map2 Z.mul w (coarseSteps c))).
Proof.
  intros c G HW HC. rewrite <- gridMass_nodal by auto. apply gridMass_ext. intros w Hw. rewrite sizesOf_cfg in Hw by auto. symmetry.
  apply (opAll_roundtrip c false (seq 0 (length (hLevels c))) G HW (seq_dims c) (seq_NoDup _ _) (conservative_suitable c G HC)). exact Hw.
Qed.
