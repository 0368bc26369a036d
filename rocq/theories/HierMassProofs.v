(** Mass conservation of the full weighting and biorthogonal kernels. *)
From Verif Require Import Base DofModel DofProofs Level1dModel Level1dProofs DecompProofs Hier1dModel Hier1dProofs.
From Coq Require Import QArith Qcanon.
Open Scope Z_scope.

Definition qsum (l : list Qc) : Qc := fold_right Qcplus 0%Qc l.

Lemma qsum_app : forall a b, qsum (a ++ b) = (qsum a + qsum b)%Qc.
Proof. induction a; intros; simpl; [ring|]. unfold qsum in *. simpl. rewrite IHa. ring. Qed.

Lemma zseq_S : forall n a, zseq a (S n) = zseq a n ++ [a + Z.of_nat n].
Proof. intros. replace (S n) with (n + 1)%nat by lia. now rewrite zseq_app. Qed.

Lemma qsum_telescope : forall n (x : Z -> Qc),
  qsum (map (fun k => x (k + 1)%Z - x k)%Qc (zseq 0 n)) = (x (Z.of_nat n) - x 0%Z)%Qc.
Proof.
  induction n as [|n IH]; intros x; [simpl; ring|].
  rewrite zseq_S, map_app, qsum_app, IH. cbn [map qsum fold_right]. rewrite Z.add_0_l.
  replace (Z.of_nat (S n)) with (Z.of_nat n + 1) by lia. ring.
Qed.

Lemma qsum_map_plus : forall (f g : Z -> Qc) l, qsum (map (fun k => f k + g k)%Qc l) = (qsum (map f l) + qsum (map g l))%Qc.
Proof. induction l; simpl; [ring|]. unfold qsum in *; simpl. rewrite IHl. ring. Qed.

Lemma qsum_map_scale : forall c (f : Z -> Qc) l, qsum (map (fun k => c * f k)%Qc l) = (c * qsum (map f l))%Qc.
Proof. induction l; simpl; [ring|]. unfold qsum in *; simpl. rewrite IHl. ring. Qed.

Lemma qsum_map_ext : forall (f g : Z -> Qc) l, (forall k, In k l -> f k = g k) -> qsum (map f l) = qsum (map g l).
Proof. intros. f_equal. apply map_ext_in. auto. Qed.

(** Sum of the trapezoids over [m] intervals of width [w] (in units of the finest grid spacing, times two). *)
Definition trap (w : Z) (m : nat) (a : arr) : Qc :=
  qsum (map (fun k => a (k * w)%Z + a ((k + 1) * w)%Z)%Qc (zseq 0 m)).

(** Fine trapezoids of one coarse interval. *)
Lemma trap_double : forall w m a,
  trap w (2 * m) a = qsum (map (fun k => a (k * (2 * w))%Z + qtwo * a (k * (2 * w) + w)%Z + a ((k + 1) * (2 * w))%Z)%Qc (zseq 0 m)).
Proof.
  intros w m a. unfold trap. induction m as [|m IH]; [reflexivity|].
  replace (2 * S m)%nat with (S (S (2 * m)))%nat by lia. rewrite 2!zseq_S, !map_app, !qsum_app, IH.
  rewrite zseq_S, map_app, qsum_app. cbn [map qsum fold_right].
  replace ((0 + Z.of_nat (S (2 * m))) * w) with (Z.of_nat m * (2 * w) + w) by lia.
  replace ((0 + Z.of_nat (S (2 * m)) + 1) * w) with ((Z.of_nat m + 1) * (2 * w)) by lia.
  replace ((0 + Z.of_nat (2 * m)) * w) with (Z.of_nat m * (2 * w)) by lia.
  replace ((0 + Z.of_nat (2 * m) + 1) * w) with (Z.of_nat m * (2 * w) + w) by lia.
  rewrite !Z.add_0_l. rewrite qtwo_inv. ring.
Qed.

(** A coarse value that takes a quarter of the defects on both sides keeps the sum, if the defects beyond the ends
    mirror or repeat those inside. *)
Lemma mass_core : forall m (f c d : Z -> Qc),
  (d (-1) = d 0 /\ d (Z.of_nat m) = d (Z.of_nat m - 1)) \/ (d (-1) = d (Z.of_nat m - 1) /\ d (Z.of_nat m) = d 0) ->
  (forall k, 0 <= k <= Z.of_nat m -> c k = (f k + qquarter * (d (k - 1)%Z + d k))%Qc) ->
  (qtwo * qsum (map (fun k => c k + c (k + 1)%Z) (zseq 0 m)) =
   qsum (map (fun k => qtwo * (f k + f (k + 1)%Z) + qtwo * d k) (zseq 0 m)))%Qc.
Proof.
  intros m f c d Hd Hc.
  rewrite <- qsum_map_scale.
  transitivity (qsum (map (fun k => (qtwo * (f k + f (k + 1)%Z) + qtwo * d k) +
                   qhalf * ((d (k + 1 - 0)%Z - d (k + 1 - 1)%Z) - (d (k - 0)%Z - d (k - 1)%Z))) (zseq 0 m)))%Qc.
  { apply qsum_map_ext. intros k Hk. apply zseq_In in Hk. rewrite (Hc k), (Hc (k + 1)) by lia.
    replace (k + 1 - 1) with k by lia. rewrite !Z.sub_0_r. qcf. }
  rewrite qsum_map_plus. rewrite qsum_map_scale.
  rewrite (qsum_telescope m (fun k => d (k - 0)%Z - d (k - 1)%Z)%Qc).
  replace ((d (Z.of_nat m - 0)%Z - d (Z.of_nat m - 1)%Z - (d (0 - 0)%Z - d (0 - 1)%Z)))%Qc with 0%Qc; [ring|].
  rewrite !Z.sub_0_r. change (0 - 1) with (-1). destruct Hd as [[-> ->] | [-> ->]]; ring.
Qed.

Section Step.
Variables (p : bool) (w N : Z) (m : nat) (a : arr).
Hypotheses (Hw : 0 < w) (Hm : (0 < m)%nat) (HN : N = Z.of_nat m * (2 * w)) (HP : perOk p N a).

(** Defects with mirrored or periodic continuation. *)
Definition ghost (o : Z -> Qc) (k : Z) : Qc :=
  if k =? -1 then (if p then o (Z.of_nat m - 1) else o 0)
  else if k =? Z.of_nat m then (if p then o 0 else o (Z.of_nat m - 1)) else o k.

Lemma ghost_ok : forall o,
  (ghost o (-1) = ghost o 0 /\ ghost o (Z.of_nat m) = ghost o (Z.of_nat m - 1)) \/
  (ghost o (-1) = ghost o (Z.of_nat m - 1) /\ ghost o (Z.of_nat m) = ghost o 0).
Proof.
  intros o. unfold ghost. destruct p; [right|left];
  repeat match goal with |- context [?x =? ?y] => destruct (Z.eqb_spec x y); try lia end; auto.
Qed.

Lemma even_multiple : forall k, (k * (2 * w)) mod (2 * w) = 0.
Proof. intros. apply Z.mod_mul. lia. Qed.

Lemma even_off : forall cp cv b k, oddCF w N cp cv b (k * (2 * w)) = b (k * (2 * w)).
Proof. intros. apply oddCF_off; auto. rewrite even_multiple. lia. Qed.

Lemma odd_multiple : forall k, (k * (2 * w) + w) mod (2 * w) = w.
Proof. intros. apply (mod_unique' _ _ k); lia. Qed.

Lemma fw_coarse : forall k, 0 <= k <= Z.of_nat m ->
  fwH p w N a (k * (2 * w)) =
  (qhalf * a (k * (2 * w))%Z + qquarter * (ghost (fun i => a (i * (2 * w) + w)%Z) (k - 1)%Z + ghost (fun i => a (i * (2 * w) + w)%Z) k))%Qc.
Proof.
  intros k Hk. rewrite (fwH_cf p w N (Z.of_nat m) Hw ltac:(lia) HN a). rewrite even_off.
  assert (WN : 2 * w <= N) by nia.
  set (e := fwEnds p w N a).
  assert (EU : forall j, 0 < j < N -> e j = a j).
  { intros j Hj. unfold e, fwEnds. destruct p; ends; auto. }
  destruct (Z.eq_dec k 0) as [->|K0]; [|destruct (Z.eq_dec k (Z.of_nat m)) as [->|Km]].
  - rewrite Z.mul_0_l. destruct (evenCF_end w N qquarter qhalf e) as [-> _].
    unfold ghost, e, fwEnds. change (0 - 1) with (-1). change (-1 =? -1) with true. change (0 =? -1) with false.
    cbv iota. destruct (Z.eqb_spec 0 (Z.of_nat m)); [lia|]. rewrite Z.mul_0_l, Z.add_0_l.
    replace ((Z.of_nat m - 1) * (2 * w) + w) with (N - w) by lia.
    destruct p; ends; try (rewrite <- (HP eq_refl)); qcf.
  - replace (Z.of_nat m * (2 * w)) with N by lia. destruct (evenCF_end w N qquarter qhalf e) as [_ ->].
    unfold ghost, e, fwEnds.
    destruct (Z.eqb_spec (Z.of_nat m - 1) (-1)); [lia|]. destruct (Z.eqb_spec (Z.of_nat m - 1) (Z.of_nat m)); [lia|].
    destruct (Z.eqb_spec (Z.of_nat m) (-1)); [lia|]. rewrite Z.eqb_refl. rewrite Z.mul_0_l, Z.add_0_l.
    replace ((Z.of_nat m - 1) * (2 * w) + w) with (N - w) by lia.
    destruct p; ends; try (rewrite <- (HP eq_refl)); qcf.
  - unfold evenCF. rewrite even_multiple, Z.eqb_refl.
    assert (0 < k * (2 * w) < N) by nia.
    replace ((0 <? k * (2 * w)) && (k * (2 * w) <? N) && true) with true by lia.
    rewrite !EU by nia. unfold ghost.
    destruct (Z.eqb_spec (k - 1) (-1)); [lia|]. destruct (Z.eqb_spec (k - 1) (Z.of_nat m)); [lia|].
    destruct (Z.eqb_spec k (-1)); [lia|]. destruct (Z.eqb_spec k (Z.of_nat m)); [lia|].
    replace ((k - 1) * (2 * w) + w) with (k * (2 * w) - w) by lia. ring.
Qed.

Lemma fw_mass : (qtwo * trap (2 * w) m (fwH p w N a) = trap w (2 * m) a)%Qc.
Proof.
  unfold trap at 1.
  set (o := fun i => a (i * (2 * w) + w)%Z).
  rewrite (mass_core m (fun k => qhalf * a (k * (2 * w))%Z)%Qc (fun k => fwH p w N a (k * (2 * w))%Z) (ghost o)).
  - rewrite trap_double. apply qsum_map_ext. intros k Hk. apply zseq_In in Hk.
    unfold ghost. destruct (Z.eqb_spec k (-1)); [lia|]. destruct (Z.eqb_spec k (Z.of_nat m)); [lia|].
    unfold o. qcf.
  - apply ghost_ok.
  - intros k Hk. rewrite fw_coarse by auto. reflexivity.
Qed.

Definition bioOdd : Z -> Qc := oddCF w N (- qhalf)%Qc 1%Qc a.

Lemma bioOdd_val : forall k, 0 <= k < Z.of_nat m ->
  bioOdd (k * (2 * w) + w) = (a (k * (2 * w) + w)%Z - qhalf * (a (k * (2 * w))%Z + a ((k + 1) * (2 * w))%Z))%Qc.
Proof.
  intros k Hk. unfold bioOdd, oddCF. rewrite odd_multiple, Z.eqb_refl.
  assert (0 < k * (2 * w) + w < N) by nia.
  replace ((0 <? k * (2 * w) + w) && (k * (2 * w) + w <? N) && true) with true by lia.
  replace (k * (2 * w) + w - w) with (k * (2 * w)) by lia.
  replace (k * (2 * w) + w + w) with ((k + 1) * (2 * w)) by lia. ring.
Qed.

Lemma bio_coarse : forall k, 0 <= k <= Z.of_nat m ->
  bioH p w N a (k * (2 * w)) =
  (a (k * (2 * w))%Z + qquarter * (ghost (fun i => bioOdd (i * (2 * w) + w)%Z) (k - 1)%Z + ghost (fun i => bioOdd (i * (2 * w) + w)%Z) k))%Qc.
Proof.
  intros k Hk. rewrite (bioH_cf p w N (Z.of_nat m) Hw ltac:(lia) HN a). fold bioOdd.
  assert (WN : 2 * w <= N) by nia.
  set (e := bioEnds p w N bioOdd).
  assert (EU : forall j, 0 < j < N -> e j = bioOdd j).
  { intros j Hj. unfold e, bioEnds. destruct p; ends; auto. }
  destruct (oddCF_end w N (- qhalf)%Qc 1%Qc a) as [O0 ON]. fold bioOdd in O0, ON.
  destruct (Z.eq_dec k 0) as [->|K0]; [|destruct (Z.eq_dec k (Z.of_nat m)) as [->|Km]].
  - rewrite Z.mul_0_l. destruct (evenCF_end w N qquarter 1%Qc e) as [-> _].
    unfold ghost, e, bioEnds. change (0 - 1) with (-1). change (-1 =? -1) with true. change (0 =? -1) with false.
    cbv iota. destruct (Z.eqb_spec 0 (Z.of_nat m)); [lia|]. rewrite Z.mul_0_l, Z.add_0_l.
    replace ((Z.of_nat m - 1) * (2 * w) + w) with (N - w) by lia.
    destruct p; ends; rewrite ?O0, ?ON; try (rewrite <- (HP eq_refl)); qcf.
  - replace (Z.of_nat m * (2 * w)) with N by lia. destruct (evenCF_end w N qquarter 1%Qc e) as [_ ->].
    unfold ghost, e, bioEnds.
    destruct (Z.eqb_spec (Z.of_nat m - 1) (-1)); [lia|]. destruct (Z.eqb_spec (Z.of_nat m - 1) (Z.of_nat m)); [lia|].
    destruct (Z.eqb_spec (Z.of_nat m) (-1)); [lia|]. rewrite Z.eqb_refl. rewrite Z.mul_0_l, Z.add_0_l.
    replace ((Z.of_nat m - 1) * (2 * w) + w) with (N - w) by lia.
    destruct p; ends; rewrite ?O0, ?ON; try (rewrite <- (HP eq_refl)); qcf.
  - unfold evenCF. rewrite even_multiple, Z.eqb_refl.
    assert (0 < k * (2 * w) < N) by nia.
    replace ((0 <? k * (2 * w)) && (k * (2 * w) <? N) && true) with true by lia.
    rewrite !EU by nia. unfold ghost.
    destruct (Z.eqb_spec (k - 1) (-1)); [lia|]. destruct (Z.eqb_spec (k - 1) (Z.of_nat m)); [lia|].
    destruct (Z.eqb_spec k (-1)); [lia|]. destruct (Z.eqb_spec k (Z.of_nat m)); [lia|].
    replace ((k - 1) * (2 * w) + w) with (k * (2 * w) - w) by lia.
    replace (bioOdd (k * (2 * w))) with (a (k * (2 * w))) by (symmetry; apply even_off). ring.
Qed.

Lemma bio_mass : (qtwo * trap (2 * w) m (bioH p w N a) = trap w (2 * m) a)%Qc.
Proof.
  unfold trap at 1.
  set (o := fun i => bioOdd (i * (2 * w) + w)%Z).
  rewrite (mass_core m (fun k => a (k * (2 * w))%Z)%Qc (fun k => bioH p w N a (k * (2 * w))%Z) (ghost o)).
  - rewrite trap_double. apply qsum_map_ext. intros k Hk. apply zseq_In in Hk.
    unfold ghost. destruct (Z.eqb_spec k (-1)); [lia|]. destruct (Z.eqb_spec k (Z.of_nat m)); [lia|].
    unfold o. rewrite bioOdd_val by lia. qcf.
  - apply ghost_ok.
  - intros k Hk. rewrite bio_coarse by auto. reflexivity.
Qed.
End Step.

Definition qpow2 (k : nat) : Qc := Qcpower qtwo k.

Lemma trap_ext : forall w m a b, (forall k, 0 <= k <= Z.of_nat m -> a (k * w) = b (k * w)) -> trap w m a = trap w m b.
Proof. intros. unfold trap. apply qsum_map_ext. intros k Hk. apply zseq_In in Hk. rewrite !H by lia. auto. Qed.

(** All levels: the coarse values of the hierarchized buffer carry the mass. *)
Lemma levels_mass : forall (H : Z -> arr -> arr) p L k, 0 <= k <= L ->
  (forall d a, 0 <= d < k -> perOk p (2 ^ L) a ->
     perOk p (2 ^ L) (H d a) /\
     (qtwo * trap (2 * 2 ^ d) (Z.to_nat (2 ^ (L - d - 1))) (H d a) = trap (2 ^ d) (2 * Z.to_nat (2 ^ (L - d - 1))) a)%Qc) ->
  forall a, perOk p (2 ^ L) a ->
  (qpow2 (Z.to_nat k) * trap (2 ^ k) (Z.to_nat (2 ^ (L - k))) (upLevels H k a) = trap 1 (Z.to_nat (2 ^ L)) a)%Qc.
Proof.
  intros H p L k Hk HL a P. unfold upLevels, zrange. rewrite Z.sub_0_r.
  assert (G : forall n, Z.of_nat n <= k ->
    perOk p (2 ^ L) (fold_left (fun b d => H d b) (zseq 0 n) a) /\
    (qpow2 n * trap (2 ^ Z.of_nat n) (Z.to_nat (2 ^ (L - Z.of_nat n))) (fold_left (fun b d => H d b) (zseq 0 n) a)
     = trap 1 (Z.to_nat (2 ^ L)) a)%Qc).
  { induction n as [|n IH]; intros Hn.
    - split; auto. unfold qpow2. cbn [Qcpower Z.of_nat]. rewrite Z.sub_0_r, Z.pow_0_r. cbn [zseq fold_left]. ring.
    - destruct (IH ltac:(lia)) as [P1 E1]. rewrite zseq_S, fold_left_app. cbn [fold_left]. rewrite Z.add_0_l.
      destruct (HL (Z.of_nat n) _ ltac:(lia) P1) as [P2 E2]. split; auto.
      rewrite <- E1. unfold qpow2. cbn [Qcpower].
      replace (2 ^ Z.of_nat (S n)) with (2 * 2 ^ Z.of_nat n).
      2:{ rewrite Nat2Z.inj_succ, Z.pow_succ_r by lia. reflexivity. }
      replace (L - Z.of_nat (S n)) with (L - Z.of_nat n - 1) by lia.
      replace (Z.to_nat (2 ^ (L - Z.of_nat n))) with (2 * Z.to_nat (2 ^ (L - Z.of_nat n - 1)))%nat.
      2:{ replace (L - Z.of_nat n) with (1 + (L - Z.of_nat n - 1)) at 2 by lia. rewrite Z.pow_add_r by lia.
          change (2 ^ 1) with 2. pose proof (pow2_pos (L - Z.of_nat n - 1) ltac:(lia)). lia. }
      rewrite <- E2. ring. }
  destruct (G (Z.to_nat k) ltac:(lia)) as [_ E]. rewrite Z2Nat.id in E by lia. exact E.
Qed.

Lemma fwHier_mass : forall p L lmin a, 0 <= lmin <= L -> L <= 28 -> perOk p (2 ^ L) a ->
  (qpow2 (Z.to_nat (L - lmin)) * trap (2 ^ (L - lmin)) (Z.to_nat (2 ^ lmin)) (fwHier p L lmin a) = trap 1 (Z.to_nat (2 ^ L)) a)%Qc.
Proof.
  intros p L lmin a H HL P. unfold fwHier.
  replace (2 ^ lmin) with (2 ^ (L - (L - lmin))) by (f_equal; lia).
  apply (levels_mass _ p); auto; [lia|].
  intros d b Hd Pb. destruct (pow2_level L d ltac:(lia)) as (W & M & E).
  destruct (fw_step p L d ltac:(lia) HL) as (F1 & _). split.
  - eapply perOk_eqA; [apply eqA_sym, F1|]. eapply fwH_per; eauto.
  - erewrite trap_ext by (intros; apply F1). apply fw_mass; auto; try lia.
Qed.

Lemma bioHier_mass : forall p L lmin a, 0 <= lmin <= L -> L <= 28 -> perOk p (2 ^ L) a ->
  (qpow2 (Z.to_nat (L - lmin)) * trap (2 ^ (L - lmin)) (Z.to_nat (2 ^ lmin)) (bioHier p L lmin a) = trap 1 (Z.to_nat (2 ^ L)) a)%Qc.
Proof.
  intros p L lmin a H HL P. unfold bioHier.
  replace (2 ^ lmin) with (2 ^ (L - (L - lmin))) by (f_equal; lia).
  apply (levels_mass _ p); auto; [lia|].
  intros d b Hd Pb. destruct (pow2_level L d ltac:(lia)) as (W & M & E).
  destruct (fw_step p L d ltac:(lia) HL) as (_ & _ & F1 & _). split.
  - eapply perOk_eqA; [apply eqA_sym, F1|]. eapply bioH_per; eauto.
  - erewrite trap_ext by (intros; apply F1). apply bio_mass; auto; try lia.
Qed.
