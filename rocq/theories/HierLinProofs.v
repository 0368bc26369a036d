(** Linearity of the pole operations and commutation of different dimensions. *)
From Verif Require Import Base TensorModel TensorProofs PartitionModel PartitionProofs DecompModel DecompProofs DofModel DofProofs Level1dModel
  Level1dProofs SubspaceModel SubspaceProofs Hier1dModel Hier1dProofs HierMassProofs Hier1dProps DistHierModel DistHierProofs DistExchangeProofs
  DistPoleProofs HierNDModel HierNDProofs.
From Coq Require Import QArith Qcanon.
Open Scope Z_scope.
Ltac Zify.zify_post_hook ::= idtac.

(** ** The kernels are linear *)

Definition linop (F : arr -> arr) : Prop :=
  forall a b (c : Qc) u, (forall j, u j = a j + c * b j)%Qc -> forall j, (F u j = F a j + c * F b j)%Qc.

Lemma linop_id : linop (fun a => a).
Proof. intros a b c u H. exact H. Qed.

Lemma linop_comp : forall F G, linop F -> linop G -> linop (fun a => F (G a)).
Proof. intros F G HF HG a b c u H. apply HF. now apply HG. Qed.

Lemma linop_fold : forall (A : Type) (F : A -> arr -> arr) l, (forall x, In x l -> linop (F x)) ->
  linop (fun a => fold_left (fun b x => F x b) l a).
Proof.
  induction l as [|x l IH]; intros H; cbn [fold_left]; [apply linop_id|].
  intros a b c u E. apply (IH (fun y Hy => H y (or_intror Hy)) (F x a) (F x b) c). now apply (H x (or_introl eq_refl)).
Qed.

Lemma linop_set : forall i (v : arr -> Qc),
  (forall a b c u, (forall j, u j = a j + c * b j)%Qc -> (v u = v a + c * v b)%Qc) -> linop (fun a => setA a i (v a)).
Proof. intros i v Hv a b c u H j. unfold setA. destruct (j =? i); auto. Qed.

Lemma stencil_lin : forall n i stride off cp cv (c : Qc) pu pa pb u a b, (pu = pa + c * pb)%Qc ->
  (forall j, u j = a j + c * b j)%Qc -> forall j,
  (stencilLoop n i stride off cp cv pu u j = stencilLoop n i stride off cp cv pa a j + c * stencilLoop n i stride off cp cv pb b j)%Qc.
Proof.
  induction n as [|n IH]; intros i stride off cp cv c pu pa pb u a b Hp H j; cbn [stencilLoop]; auto.
  apply IH.
  - rewrite H. ring.
  - intros x. unfold setA. destruct (x =? i); auto. rewrite !H, Hp. ring.
Qed.

Lemma hatHier_lin : forall L m, linop (hatHier L m).
Proof.
  intros L m. unfold hatHier. generalize (L - 1) at 1. generalize (Z.shiftl 1 (L - 1)). generalize 1 at 2. generalize 2. generalize 1.
  induction (Z.to_nat (L - m)) as [|n IH]; intros po ss off st ll; cbn [hatHierLoop]; [apply linop_id|].
  apply (linop_comp (hatHierLoop n L (ll - 1) _ _ _ _)); [apply IH|].
  intros a b c u H. apply stencil_lin; auto. rewrite H. ring.
Qed.

Lemma hatDehier_lin : forall L m, linop (hatDehier L m).
Proof.
  intros L m. unfold hatDehier.
  generalize (m + 1). generalize (Z.shiftl 1 m). generalize (Z.shiftl 1 (L - m - 1)) at 1. generalize (Z.shiftl 1 (L - m)).
  generalize (Z.shiftl 1 (L - m - 1)).
  induction (Z.to_nat (L - m)) as [|n IH]; intros po ss off st ll; cbn [hatDehierLoop]; [apply linop_id|].
  apply (linop_comp (hatDehierLoop n L (ll + 1) _ _ _ _)); [apply IH|].
  intros a b c u H. apply stencil_lin; auto. rewrite H. ring.
Qed.

Lemma oddLoop_lin : forall w N cp cv, linop (oddLoop w N cp cv).
Proof. intros w N cp cv a b c u H. unfold oddLoop. apply stencil_lin; auto. rewrite H. ring. Qed.
Lemma evenLoop_lin : forall w N cp cv, linop (evenLoop w N cp cv).
Proof. intros w N cp cv a b c u H. unfold evenLoop. apply stencil_lin; auto. rewrite H. ring. Qed.

Lemma ends_lin : forall p w N, linop (fwEnds p w N) /\ linop (fwEndsInv p w N) /\ linop (bioEnds p w N) /\ linop (bioEndsInv p w N).
Proof.
  intros p w N. unfold fwEnds, fwEndsInv, bioEnds, bioEndsInv. destruct p; cbv zeta.
  - repeat split; intros a b c u H j; unfold setA; repeat (match goal with |- context [?x =? ?y] => destruct (x =? y) end);
      rewrite ?H; try (change qquarter with (Q2Qc (1 # 4)); change qhalf with (Q2Qc (1 # 2)); ring).
  - repeat split; intros a b c u H j; unfold setA; repeat (match goal with |- context [?x =? ?y] => destruct (x =? y) end);
      rewrite ?H; try (change qtwo with (Q2Qc 2); change qhalf with (Q2Qc (1 # 2)); ring).
Qed.

Lemma kernel_lin : forall f L m, linop (hierKernel f L m) /\ linop (dehierKernel f L m).
Proof.
  assert (S : forall p N d, linop (fwHierStep p N d) /\ linop (fwDehierStep p N d) /\ linop (bioHierStep p N d) /\ linop (bioDehierStep p N d)).
  { intros p N d. destruct (ends_lin p (powerOfTwo d) N) as (E1 & E2 & E3 & E4).
    unfold fwHierStep, fwDehierStep, bioHierStep, bioDehierStep. cbv zeta. split; [|split; [|split]].
    - apply (linop_comp (oddLoop _ _ _ _)); [apply oddLoop_lin|]. apply (linop_comp (evenLoop _ _ _ _)); [apply evenLoop_lin|auto].
    - apply (linop_comp (fwEndsInv _ _ _)); auto. apply (linop_comp (evenLoop _ _ _ _)); [apply evenLoop_lin|apply oddLoop_lin].
    - apply (linop_comp (evenLoop _ _ _ _)); [apply evenLoop_lin|]. apply (linop_comp (bioEnds _ _ _)); auto. apply oddLoop_lin.
    - apply (linop_comp (oddLoop _ _ _ _)); [apply oddLoop_lin|]. apply (linop_comp (evenLoop _ _ _ _)); [apply evenLoop_lin|auto]. }
  intros f L m.
  assert (K : forall p, linop (fwHier p L m) /\ linop (fwDehier p L m) /\ linop (bioHier p L m) /\ linop (bioDehier p L m)).
  { intros p. unfold fwHier, fwDehier, bioHier, bioDehier, upLevels, downLevels.
    split; [|split; [|split]]; apply linop_fold; intros x _; apply S. }
  destruct f; cbn [hierKernel dehierKernel]; try (split; [apply hatHier_lin|apply hatDehier_lin]); try (split; apply K).
Qed.

Lemma nbPoint_lin : forall (s : Qc) n w i, linop (noBoundaryPoint s n w i).
Proof.
  intros s n w i. unfold noBoundaryPoint. cbv zeta. apply linop_set. intros a b c u H.
  destruct (i - w >? 0), (i + w <? n); rewrite ?H; ring.
Qed.

Lemma nb_lin : forall L n lo up, linop (noBoundaryHier L n lo up) /\ linop (noBoundaryDehier L n).
Proof.
  assert (LV : forall (s : Qc) n w x y, linop (noBoundaryLevel s n w x y)).
  { intros. unfold noBoundaryLevel. apply linop_fold. intros; apply nbPoint_lin. }
  intros L n lo up. split; unfold noBoundaryHier, noBoundaryDehier; apply linop_fold; intros l _.
  - cbv zeta. destruct (firstIndexOfLevel L lo up l >? -1); [apply LV|apply linop_id].
  - apply LV.
Qed.

(** ** Operations on a range: linear and local *)

Definition linRange (n : Z) (P : arr -> arr) : Prop :=
  forall a b (c : Qc) u, (forall j, 0 <= j < n -> u j = a j + c * b j)%Qc -> forall j, 0 <= j < n -> (P u j = P a j + c * P b j)%Qc.

Lemma linRange_ext : forall n P, linRange n P -> forall a b, (forall j, 0 <= j < n -> a j = b j) ->
  forall j, 0 <= j < n -> P a j = P b j.
Proof.
  intros n P HP a b H j Hj. rewrite (HP b b 0%Qc a); auto; [ring|]. intros i Hi. rewrite H by auto. ring.
Qed.

Lemma poleOp_lin : forall f dehier b L lmin n, 0 <= b <= 2 -> 0 <= lmin -> 0 <= L <= 28 -> n = 2 ^ L + b - 1 ->
  linRange n (poleOp f dehier b L lmin n).
Proof.
  intros f dehier b L lmin n Hb Hm HL Hn a a' c u H j Hj. unfold poleOp, dehierPole, hierPole.
  pose proof (Z.geb_leb lmin L) as EG. destruct (Z.leb_spec L lmin) as [E|E].
  { destruct dehier; rewrite EG; now apply H. }
  destruct (Z.eq_dec b 0) as [B|B].
  - assert (b >? 0 = false) as EB by (rewrite Z.gtb_ltb; apply Z.ltb_ge; lia).
    assert (En : n = 2 ^ L - 1) by lia.
    assert (LD : forall g i, 0 <= i < n -> loadPole b n 0 n (fun _ => 0%Qc) [] g i = g i) by (intros; apply loadPole_local; lia).
    set (ld := loadPole b n 0 n (fun _ => 0%Qc) []) in *.
    destruct (nb_lin L n 0 n) as [N1 N2].
    pose proof (nbKernel_agree L (ld u) (fun i => ld a i + c * ld a' i)%Qc ltac:(lia)) as NA. cbv zeta in NA.
    rewrite <- En in NA. destruct NA as [A1 A2].
    { intros i Hi. rewrite !LD by auto. now apply H. }
    destruct dehier; rewrite EG, EB; change (loadPole b n 0 n (fun _ => 0%Qc) []) with ld; destruct f; try (now apply H).
    + rewrite (A2 j Hj). apply N2. auto.
    + rewrite (A1 j Hj). apply N1. auto.
  - assert (b >? 0 = true) as EB by (rewrite Z.gtb_ltb; apply Z.ltb_lt; lia).
    pose proof (fun g => loadPole_serial b L n (fun _ => 0%Qc) g ltac:(lia) ltac:(lia) Hn) as LS.
    set (ld := loadPole b n 0 n (fun _ => 0%Qc) []) in *.
    destruct (kernel_lin f L lmin) as [K1 K2].
    destruct (kernel_agree f L lmin (ld u) (fun i => ld a i + c * ld a' i)%Qc ltac:(lia) ltac:(lia)) as [A1 A2].
    { intros i Hi. rewrite !(LS _ i Hi). unfold onRange in Hi. pose proof (pow2_pos L ltac:(lia)).
      destruct (Z.eqb_spec b 1); cbn [andb]; [destruct (Z.eqb_spec i (2 ^ L))|]; apply H; lia. }
    assert (Rj : onRange (2 ^ L) j) by (unfold onRange; lia).
    destruct dehier; rewrite EG, EB; change (loadPole b n 0 n (fun _ => 0%Qc) []) with ld.
    + rewrite (A2 j Rj). apply K2. auto.
    + rewrite (A1 j Rj). apply K1. auto.
Qed.

(** A linear operation on a range is given by finitely many coefficients. *)
Definition unitA (i : Z) : arr := fun j => if j =? i then 1%Qc else 0%Qc.

Lemma linRange_coeff : forall n P, 0 <= n -> linRange n P -> forall a j, 0 <= j < n ->
  P a j = qsum (map (fun i => a i * P (unitA i) j)%Qc (zrange 0 n)).
Proof.
  intros n P Hn HP a j Hj.
  assert (Z0 : forall z, (forall i, 0 <= i < n -> z i = 0%Qc) -> P z j = 0%Qc).
  { intros z Hz. assert (E : (P z j = P z j + 1 * P z j)%Qc).
    { apply HP; auto. intros i Hi. rewrite Hz by auto. ring. }
    assert (E2 : (P z j - P z j = P z j + 1 * P z j - P z j)%Qc) by (rewrite <- E; reflexivity).
    ring_simplify in E2. now symmetry. }
  assert (G : forall k, 0 <= Z.of_nat k <= n ->
     P (fun i => if i <? Z.of_nat k then a i else 0%Qc) j = qsum (map (fun i => a i * P (unitA i) j)%Qc (zrange 0 (Z.of_nat k)))).
  { induction k as [|k IH]; intros Hk.
    - rewrite zrange_nil by lia. simpl. apply Z0. intros i Hi. destruct (Z.ltb_spec i 0); auto; lia.
    - rewrite zrange_snoc by lia. replace (Z.of_nat (S k) - 1) with (Z.of_nat k) by lia. rewrite map_app, qsum_app, <- IH by lia.
      rewrite (HP (fun i => if i <? Z.of_nat k then a i else 0%Qc) (unitA (Z.of_nat k)) (a (Z.of_nat k))); auto.
      + cbn [map]. unfold qsum. cbn [fold_right]. ring.
      + intros i Hi. unfold unitA. destruct (Z.ltb_spec i (Z.of_nat (S k))); destruct (Z.ltb_spec i (Z.of_nat k));
          destruct (Z.eqb_spec i (Z.of_nat k)); try lia; subst; ring. }
  specialize (G (Z.to_nat n) ltac:(lia)). rewrite Z2Nat.id in G by lia. rewrite <- G.
  apply (linRange_ext n P HP); auto. intros i Hi. destruct (Z.ltb_spec i n); auto; lia.
Qed.

Lemma linRange_sum : forall n P, linRange n P -> forall (A : Type) (l : list A) (q : A -> Qc) (h : A -> arr) j, 0 <= j < n ->
  P (fun i => qsum (map (fun x => q x * h x i)%Qc l)) j = qsum (map (fun x => q x * P (h x) j)%Qc l).
Proof.
  intros n P HP A l q h j Hj. induction l as [|x l IH].
  - cbn [map]. assert (E : (P (fun _ => qsum []) j = P (fun _ => qsum []) j + 1 * P (fun _ => qsum []) j)%Qc).
    { apply HP; [|exact Hj]. intros i Hi. reflexivity. }
    set (z := P (fun _ => qsum []) j) in *. assert (E2 : (z - z = z + 1 * z - z)%Qc) by (rewrite <- E; reflexivity).
    ring_simplify in E2. unfold qsum. simpl. now symmetry.
  - cbn [map]. rewrite (HP (fun i => qsum (map (fun x => q x * h x i)%Qc l)) (h x) (q x)); auto.
    + rewrite IH. unfold qsum. cbn [fold_right]. ring.
    + intros i Hi. unfold qsum. cbn [fold_right]. ring.
Qed.

(** ** Operations along dimensions *)

Definition opAt (k : nat) (P : arr -> arr) (G : list Z -> Qc) : list Z -> Qc := fun v => P (fun i => G (upd v k i)) (nth k v 0).

Definition boxEq (sizes : list Z) (G G' : list Z -> Qc) : Prop := forall v, inBox sizes v -> G v = G' v.

Lemma upd_inBox : forall sizes v k i, inBox sizes v -> 0 <= i < nth k sizes 0 -> inBox sizes (upd v k i).
Proof.
  intros sizes v k i Hv Hi. rewrite inBox_nth in *. destruct Hv as [E Hv]. rewrite upd_length. split; auto.
  intros x Hx. destruct (Nat.eq_dec x k) as [->|N]; [rewrite nth_upd_same by lia|rewrite nth_upd_other by auto]; auto.
Qed.

Lemma nth_inBox : forall sizes v k, inBox sizes v -> (k < length sizes)%nat -> 0 <= nth k v 0 < nth k sizes 0.
Proof. intros sizes v k Hv Hk. apply inBox_nth in Hv. now apply Hv. Qed.

Lemma opAt_ext : forall sizes k P G G', (k < length sizes)%nat -> linRange (nth k sizes 0) P -> boxEq sizes G G' ->
  boxEq sizes (opAt k P G) (opAt k P G').
Proof.
  intros sizes k P G G' Hk HP H v Hv. unfold opAt. apply (linRange_ext _ P HP); [|now apply nth_inBox].
  intros i Hi. apply H. now apply upd_inBox.
Qed.

Lemma upd_comm : forall (v : list Z) i j x y, i <> j -> upd (upd v i x) j y = upd (upd v j y) i x.
Proof.
  induction v as [|z v IH]; intros [|i] [|j] x y H; simpl; auto; try congruence. f_equal. apply IH. congruence.
Qed.

Lemma opAt_comm : forall sizes j k P Q G, (j < length sizes)%nat -> (k < length sizes)%nat -> j <> k ->
  linRange (nth j sizes 0) P -> linRange (nth k sizes 0) Q ->
  boxEq sizes (opAt j P (opAt k Q G)) (opAt k Q (opAt j P G)).
Proof.
  intros sizes j k P Q G Hj Hk N HP HQ v Hv. unfold opAt at 1 3.
  pose proof (nth_inBox _ _ _ Hv Hj) as Rj. pose proof (nth_inBox _ _ _ Hv Hk) as Rk.
  assert (Nk : 0 <= nth k sizes 0) by lia.
  set (C := fun i' => Q (unitA i') (nth k v 0)).
  transitivity (P (fun i => qsum (map (fun i' => C i' * G (upd (upd v j i) k i'))%Qc (zrange 0 (nth k sizes 0)))) (nth j v 0)).
  - apply (linRange_ext _ P HP); auto. intros i Hi. unfold opAt. rewrite nth_upd_other by auto.
    rewrite (linRange_coeff _ Q Nk HQ) by auto. f_equal. apply map_ext. intros i'. unfold C. ring.
  - rewrite (linRange_sum _ P HP _ _ C (fun i' i => G (upd (upd v j i) k i'))) by auto.
    rewrite (linRange_coeff _ Q Nk HQ) by auto. f_equal. apply map_ext. intros i'. unfold opAt.
    rewrite nth_upd_other by auto. unfold C. rewrite Qcmult_comm. f_equal.
    apply (linRange_ext _ P HP); auto. intros i Hi. f_equal. now apply upd_comm.
Qed.
