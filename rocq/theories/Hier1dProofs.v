From Verif Require Import Base DofModel DofProofs Level1dModel Level1dProofs DecompProofs Hier1dModel.
From Coq Require Import QArith Qcanon.
Open Scope Z_scope.

(* mod with a variable modulus: keep the arithmetic solver from expanding it *)
Ltac Zify.zify_post_hook ::= idtac.

Lemma qhalf_inv : qhalf = (/ (1 + 1))%Qc. Proof. reflexivity. Qed.
Lemma qquarter_inv : qquarter = (/ (1 + 1) * / (1 + 1))%Qc. Proof. reflexivity. Qed.
Lemma qtwo_inv : qtwo = (1 + 1)%Qc. Proof. reflexivity. Qed.

(** Solve a linear identity in the constants of the kernels. *)
Ltac qcf := rewrite ?qhalf_inv, ?qquarter_inv, ?qtwo_inv; field; discriminate.

Definition eqA (a b : arr) : Prop := forall j, a j = b j.
Definition extOp (F : arr -> arr) : Prop := forall a b, eqA a b -> eqA (F a) (F b).

Lemma eqA_refl : forall a, eqA a a. Proof. intros a j. auto. Qed.
Lemma eqA_trans : forall a b c, eqA a b -> eqA b c -> eqA a c. Proof. intros a b c H1 H2 j. now rewrite H1. Qed.
Lemma eqA_sym : forall a b, eqA a b -> eqA b a. Proof. intros a b H j. now rewrite H. Qed.

Lemma setA_same : forall a i v, setA a i v i = v.
Proof. intros. unfold setA. now rewrite Z.eqb_refl. Qed.
Lemma setA_other : forall a i v j, j <> i -> setA a i v j = a j.
Proof. intros. unfold setA. destruct (Z.eqb_spec j i); congruence. Qed.
Lemma setA_ext : forall a b i v w, eqA a b -> v = w -> eqA (setA a i v) (setA b i w).
Proof. intros a b i v w H -> j. unfold setA. destruct (j =? i); auto. Qed.

(** ** The stencil loop *)

Lemma stencil_ext : forall n i stride off cp cv pl pl' a b, eqA a b -> pl = pl' ->
  eqA (stencilLoop n i stride off cp cv pl a) (stencilLoop n i stride off cp cv pl' b).
Proof.
  induction n as [|n IH]; intros i stride off cp cv pl pl' a b H ->; simpl; auto.
  apply IH; [|now rewrite H]. apply setA_ext; auto. now rewrite !H.
Qed.

Lemma stencil_spec : forall n i off cp cv a, 0 < off ->
  let r := stencilLoop n i (2 * off) off cp cv (cp * a (i - off)%Z)%Qc a in
  (forall k, 0 <= k < Z.of_nat n ->
     r (i + k * (2 * off)) = (cp * (a (i + k * (2 * off) - off)%Z + a (i + k * (2 * off) + off)%Z) + cv * a (i + k * (2 * off))%Z)%Qc) /\
  (forall j, (forall k, 0 <= k < Z.of_nat n -> j <> i + k * (2 * off)) -> r j = a j).
Proof.
  induction n as [|n IH]; intros i off cp cv a Ho r.
  - split; [lia|]. intros j _. reflexivity.
  - subst r. cbn [stencilLoop]. cbv zeta.
    set (a1 := setA a i _).
    assert (E : (cp * a (i + off)%Z = cp * a1 (i + 2 * off - off)%Z)%Qc).
    { unfold a1. rewrite setA_other by lia. do 2 f_equal. lia. }
    rewrite E. destruct (IH (i + 2 * off) off cp cv a1 Ho) as [H1 H2].
    set (r := stencilLoop _ _ _ _ _ _ _ _) in *. split.
    + intros k Hk. destruct (Z.eq_dec k 0) as [->|Hk0].
      * rewrite Z.mul_0_l, Z.add_0_r. rewrite H2.
        -- unfold a1. rewrite setA_same. ring.
        -- intros k' Hk'. nia.
      * specialize (H1 (k - 1) ltac:(lia)).
        replace (i + 2 * off + (k - 1) * (2 * off)) with (i + k * (2 * off)) in H1 by ring.
        rewrite H1. unfold a1. rewrite !setA_other by nia. reflexivity.
    + intros j Hj. rewrite H2.
      * unfold a1. apply setA_other. specialize (Hj 0 ltac:(lia)). lia.
      * intros k Hk E'. apply (Hj (k + 1)); lia.
Qed.

(** Closed forms: simultaneous update of the odd / inner even multiples of [w]. *)
Definition oddCF (w N : Z) (cp cv : Qc) (a : arr) : arr := fun j =>
  if (0 <? j) && (j <? N) && (j mod (2 * w) =? w) then (cp * (a (j - w)%Z + a (j + w)%Z) + cv * a j)%Qc else a j.
Definition evenCF (w N : Z) (cp cv : Qc) (a : arr) : arr := fun j =>
  if (0 <? j) && (j <? N) && (j mod (2 * w) =? 0) then (cp * (a (j - w)%Z + a (j + w)%Z) + cv * a j)%Qc else a j.

Lemma mod_unique' : forall a b q r, 0 <= r < b -> a = b * q + r -> a mod b = r.
Proof. intros. symmetry. apply (Z.mod_unique_pos a b q r); auto. Qed.

Lemma stencil_odd : forall n w N cp cv a, 0 < w -> Z.of_nat n * (2 * w) = N ->
  eqA (stencilLoop n w (2 * w) w cp cv (cp * a 0%Z)%Qc a) (oddCF w N cp cv a).
Proof.
  intros n w N cp cv a Hw HN j.
  replace (a 0) with (a (w - w)) by (f_equal; lia).
  destruct (stencil_spec n w w cp cv a Hw) as [H1 H2].
  unfold oddCF. destruct (_ && _ && _) eqn:C.
  - assert (0 < j < N /\ j mod (2 * w) = w) as [Hj Hm] by lia.
    pose proof (Z.div_mod j (2 * w) ltac:(lia)) as D. rewrite Hm in D.
    specialize (H1 (j / (2 * w)) ltac:(nia)).
    replace (w + j / (2 * w) * (2 * w)) with j in H1 by lia. exact H1.
  - apply H2. intros k Hk E.
    assert (j mod (2 * w) = w) by (apply (mod_unique' _ _ k); lia). assert (0 < j < N) by nia. lia.
Qed.

Lemma stencil_even : forall n w N cp cv a, 0 < w -> (Z.of_nat n + 1) * (2 * w) = N ->
  eqA (stencilLoop n (2 * w) (2 * w) w cp cv (cp * a w)%Qc a) (evenCF w N cp cv a).
Proof.
  intros n w N cp cv a Hw HN j.
  replace (a w) with (a (2 * w - w)) by (f_equal; lia).
  destruct (stencil_spec n (2 * w) w cp cv a Hw) as [H1 H2].
  unfold evenCF. destruct (_ && _ && _) eqn:C.
  - assert (0 < j < N /\ j mod (2 * w) = 0) as [Hj Hm] by lia.
    pose proof (Z.div_mod j (2 * w) ltac:(lia)) as D. rewrite Hm in D.
    specialize (H1 (j / (2 * w) - 1) ltac:(nia)).
    replace (2 * w + (j / (2 * w) - 1) * (2 * w)) with j in H1 by lia. exact H1.
  - apply H2. intros k Hk E.
    assert (j mod (2 * w) = 0) by (apply (mod_unique' _ _ (k + 1)); lia). assert (0 < j < N) by nia. lia.
Qed.

Lemma oddLoop_cf : forall w N M cp cv a, 0 < w -> 0 < M -> N = M * (2 * w) ->
  eqA (oddLoop w N cp cv a) (oddCF w N cp cv a).
Proof.
  intros w N M cp cv a Hw HM HN. unfold oddLoop. apply stencil_odd; auto.
  unfold forCount. destruct (Z.ltb_spec w N); [|nia].
  replace ((N - w + 2 * w - 1) / (2 * w)) with M; [nia|].
  apply (Z.div_unique _ _ _ (w - 1)); lia.
Qed.

Lemma evenLoop_cf : forall w N M cp cv a, 0 < w -> 0 < M -> N = M * (2 * w) ->
  eqA (evenLoop w N cp cv a) (evenCF w N cp cv a).
Proof.
  intros w N M cp cv a Hw HM HN. unfold evenLoop. apply stencil_even; auto.
  unfold forCount. destruct (Z.ltb_spec (2 * w) N).
  - replace ((N - 2 * w + 2 * w - 1) / (2 * w)) with (M - 1); [nia|].
    apply (Z.div_unique _ _ _ (2 * w - 1)); lia.
  - simpl. nia.
Qed.

Lemma oddCF_ext : forall w N cp cv, extOp (oddCF w N cp cv).
Proof. intros w N cp cv a b H j. unfold oddCF. destruct (_ && _); rewrite ?H; auto. Qed.
Lemma evenCF_ext : forall w N cp cv, extOp (evenCF w N cp cv).
Proof. intros w N cp cv a b H j. unfold evenCF. destruct (_ && _); rewrite ?H; auto. Qed.
Lemma fwEnds_ext : forall p w N, extOp (fwEnds p w N).
Proof. intros p w N a b H j. unfold fwEnds, setA. destruct p; cbv zeta; repeat destruct (_ =? _); rewrite ?H; auto. Qed.
Lemma fwEndsInv_ext : forall p w N, extOp (fwEndsInv p w N).
Proof. intros p w N a b H j. unfold fwEndsInv, setA. destruct p; cbv zeta; repeat destruct (_ =? _); rewrite ?H; auto. Qed.
Lemma bioEnds_ext : forall p w N, extOp (bioEnds p w N).
Proof. intros p w N a b H j. unfold bioEnds, setA. destruct p; cbv zeta; repeat destruct (_ =? _); rewrite ?H; auto. Qed.
Lemma bioEndsInv_ext : forall p w N, extOp (bioEndsInv p w N).
Proof. intros p w N a b H j. unfold bioEndsInv, setA. destruct p; cbv zeta; repeat destruct (_ =? _); rewrite ?H; auto. Qed.
Lemma oddLoop_ext : forall w N cp cv, extOp (oddLoop w N cp cv).
Proof. intros w N cp cv a b H. unfold oddLoop. apply stencil_ext; auto. now rewrite H. Qed.
Lemma evenLoop_ext : forall w N cp cv, extOp (evenLoop w N cp cv).
Proof. intros w N cp cv a b H. unfold evenLoop. apply stencil_ext; auto. now rewrite H. Qed.

(** Neighbours of an odd multiple are even multiples and conversely. *)
Lemma mod2w_shift : forall w j, 0 < w ->
  (j mod (2 * w) = w -> (j - w) mod (2 * w) = 0 /\ (j + w) mod (2 * w) = 0) /\
  (j mod (2 * w) = 0 -> (j - w) mod (2 * w) = w /\ (j + w) mod (2 * w) = w).
Proof.
  intros w j Hw. pose proof (Z.div_mod j (2 * w) ltac:(lia)) as D. split; intros E; rewrite E in D; split.
  - apply (mod_unique' _ _ (j / (2 * w))); lia.
  - apply (mod_unique' _ _ (j / (2 * w) + 1)); lia.
  - apply (mod_unique' _ _ (j / (2 * w) - 1)); lia.
  - apply (mod_unique' _ _ (j / (2 * w))); lia.
Qed.

Lemma oddCF_off : forall w N cp cv a j, 0 < w -> j mod (2 * w) <> w -> oddCF w N cp cv a j = a j.
Proof. intros. unfold oddCF. destruct (_ && _) eqn:C; auto. lia. Qed.
Lemma evenCF_off : forall w N cp cv a j, 0 < w -> j mod (2 * w) <> 0 -> evenCF w N cp cv a j = a j.
Proof. intros. unfold evenCF. destruct (_ && _) eqn:C; auto. lia. Qed.
Lemma oddCF_end : forall w N cp cv a, oddCF w N cp cv a 0 = a 0 /\ oddCF w N cp cv a N = a N.
Proof. intros. unfold oddCF. rewrite !Z.ltb_irrefl, andb_false_r. auto. Qed.
Lemma evenCF_end : forall w N cp cv a, evenCF w N cp cv a 0 = a 0 /\ evenCF w N cp cv a N = a N.
Proof. intros. unfold evenCF. rewrite !Z.ltb_irrefl, andb_false_r. auto. Qed.

Lemma oddCF_inv : forall w N cp a, 0 < w -> eqA (oddCF w N (- cp)%Qc 1%Qc (oddCF w N cp 1%Qc a)) a.
Proof.
  intros w N cp a Hw j. unfold oddCF at 1. destruct (_ && _) eqn:C.
  - assert (Hm : j mod (2 * w) = w) by lia. destruct (proj1 (mod2w_shift w j Hw) Hm) as [M1 M2].
    rewrite (oddCF_off w N cp _ a (j - w)), (oddCF_off w N cp _ a (j + w)) by lia.
    unfold oddCF. rewrite C. ring.
  - unfold oddCF. now rewrite C.
Qed.

Lemma evenCF_inv : forall w N cp cv cp' cv' a, 0 < w -> (cv' * cv = 1)%Qc -> (cv' * cp + cp' = 0)%Qc ->
  eqA (evenCF w N cp' cv' (evenCF w N cp cv a)) a.
Proof.
  intros w N cp cv cp' cv' a Hw H1 H2 j. unfold evenCF at 1. destruct (_ && _) eqn:C.
  - assert (Hm : j mod (2 * w) = 0) by lia. destruct (proj2 (mod2w_shift w j Hw) Hm) as [M1 M2].
    rewrite (evenCF_off w N cp _ a (j - w)), (evenCF_off w N cp _ a (j + w)) by lia.
    unfold evenCF. rewrite C.
    transitivity ((cv' * cp + cp') * (a (j - w)%Z + a (j + w)%Z) + (cv' * cv) * a j)%Qc; [ring|].
    rewrite H1, H2. ring.
  - unfold evenCF. now rewrite C.
Qed.

Ltac ends := cbv zeta; unfold setA;
  repeat match goal with |- context [?x =? ?y] => destruct (Z.eqb_spec x y); try lia; subst end.

(** Periodicity of the buffer. *)
Definition perOk (periodic : bool) (N : Z) (a : arr) : Prop := periodic = true -> a 0 = a N.

Lemma fwEnds_inv : forall p w N a, 0 < w -> w < N -> perOk p N a -> eqA (fwEndsInv p w N (fwEnds p w N a)) a.
Proof.
  intros p w N a Hw HN HP j. unfold fwEndsInv, fwEnds. destruct p; ends; auto;
    try (match type of HP with perOk true _ _ => specialize (HP eq_refl); rewrite ?HP end); try qcf.
Qed.
Lemma fwEnds_inv' : forall p w N a, 0 < w -> w < N -> perOk p N a -> eqA (fwEnds p w N (fwEndsInv p w N a)) a.
Proof.
  intros p w N a Hw HN HP j. unfold fwEndsInv, fwEnds. destruct p; ends; auto;
    try (match type of HP with perOk true _ _ => specialize (HP eq_refl); rewrite ?HP end); try qcf.
Qed.
Lemma bioEnds_inv : forall p w N a, 0 < w -> w < N -> perOk p N a -> eqA (bioEndsInv p w N (bioEnds p w N a)) a.
Proof.
  intros p w N a Hw HN HP j. unfold bioEndsInv, bioEnds. destruct p; ends; auto;
    try (match type of HP with perOk true _ _ => specialize (HP eq_refl); rewrite ?HP end); try qcf.
Qed.
Lemma bioEnds_inv' : forall p w N a, 0 < w -> w < N -> perOk p N a -> eqA (bioEnds p w N (bioEndsInv p w N a)) a.
Proof.
  intros p w N a Hw HN HP j. unfold bioEndsInv, bioEnds. destruct p; ends; auto;
    try (match type of HP with perOk true _ _ => specialize (HP eq_refl); rewrite ?HP end); try qcf.
Qed.

Lemma fwEnds_per : forall p w N a, perOk p N (fwEnds p w N a).
Proof. intros p w N a E. subst p. unfold fwEnds. ends; auto. Qed.
Lemma fwEndsInv_per : forall p w N a, perOk p N (fwEndsInv p w N a).
Proof. intros p w N a E. subst p. unfold fwEndsInv. ends; auto. Qed.
Lemma bioEnds_per : forall p w N a, perOk p N (bioEnds p w N a).
Proof. intros p w N a E. subst p. unfold bioEnds. ends; auto. Qed.
Lemma bioEndsInv_per : forall p w N a, perOk p N (bioEndsInv p w N a).
Proof. intros p w N a E. subst p. unfold bioEndsInv. ends; auto. Qed.

Lemma perOk_eqA : forall p N a b, eqA a b -> perOk p N a -> perOk p N b.
Proof. intros p N a b H P E. rewrite <- !H. auto. Qed.
Lemma perOk_odd : forall p w N cp cv a, perOk p N a -> perOk p N (oddCF w N cp cv a).
Proof. intros p w N cp cv a P E. destruct (oddCF_end w N cp cv a) as [-> ->]. auto. Qed.
Lemma perOk_even : forall p w N cp cv a, perOk p N a -> perOk p N (evenCF w N cp cv a).
Proof. intros p w N cp cv a P E. destruct (evenCF_end w N cp cv a) as [-> ->]. auto. Qed.

(** ** One level *)
Section Level.
Variables (p : bool) (w N M : Z).
Hypotheses (Hw : 0 < w) (HM : 0 < M) (HN : N = M * (2 * w)).

Lemma wN : w < N. Proof. nia. Qed.

Definition fwH (a : arr) := oddLoop w N (- qhalf)%Qc 1%Qc (evenLoop w N qquarter qhalf (fwEnds p w N a)).
Definition fwD (a : arr) := fwEndsInv p w N (evenLoop w N (- qhalf)%Qc qtwo (oddLoop w N qhalf 1%Qc a)).
Definition bioH (a : arr) := evenLoop w N qquarter 1%Qc (bioEnds p w N (oddLoop w N (- qhalf)%Qc 1%Qc a)).
Definition bioD (a : arr) := oddLoop w N qhalf 1%Qc (evenLoop w N (- qquarter)%Qc 1%Qc (bioEndsInv p w N a)).

Lemma fwH_cf : forall a, eqA (fwH a) (oddCF w N (- qhalf)%Qc 1%Qc (evenCF w N qquarter qhalf (fwEnds p w N a))).
Proof.
  intros a. unfold fwH. eapply eqA_trans; [eapply oddLoop_cf; eauto|]. apply oddCF_ext. eapply evenLoop_cf; eauto.
Qed.
Lemma fwD_cf : forall a, eqA (fwD a) (fwEndsInv p w N (evenCF w N (- qhalf)%Qc qtwo (oddCF w N qhalf 1%Qc a))).
Proof.
  intros a. unfold fwD. apply fwEndsInv_ext. eapply eqA_trans; [eapply evenLoop_cf; eauto|]. apply evenCF_ext.
  eapply oddLoop_cf; eauto.
Qed.
Lemma bioH_cf : forall a, eqA (bioH a) (evenCF w N qquarter 1%Qc (bioEnds p w N (oddCF w N (- qhalf)%Qc 1%Qc a))).
Proof.
  intros a. unfold bioH. eapply eqA_trans; [eapply evenLoop_cf; eauto|]. apply evenCF_ext, bioEnds_ext.
  eapply oddLoop_cf; eauto.
Qed.
Lemma bioD_cf : forall a, eqA (bioD a) (oddCF w N qhalf 1%Qc (evenCF w N (- qquarter)%Qc 1%Qc (bioEndsInv p w N a))).
Proof.
  intros a. unfold bioD. eapply eqA_trans; [eapply oddLoop_cf; eauto|]. apply oddCF_ext.
  eapply evenLoop_cf; eauto.
Qed.

Lemma neg_half : qhalf = (- - qhalf)%Qc. Proof. ring. Qed.

Lemma fwDH : forall a, perOk p N a -> eqA (fwD (fwH a)) a.
Proof.
  intros a P. eapply eqA_trans; [apply fwD_cf|].
  eapply eqA_trans; [|apply (fwEnds_inv p w N a Hw wN P)]. apply fwEndsInv_ext.
  eapply eqA_trans; [|apply (evenCF_inv w N qquarter qhalf (- qhalf)%Qc qtwo); auto; qcf]. apply evenCF_ext.
  rewrite neg_half at 1. eapply eqA_trans; [apply oddCF_ext, fwH_cf|]. apply oddCF_inv; auto.
Qed.
Lemma fwHD : forall a, perOk p N a -> eqA (fwH (fwD a)) a.
Proof.
  intros a P. eapply eqA_trans; [apply fwH_cf|].
  eapply eqA_trans; [|apply (oddCF_inv w N qhalf a Hw)]. apply oddCF_ext.
  eapply eqA_trans; [|apply (evenCF_inv w N (- qhalf)%Qc qtwo qquarter qhalf); auto; qcf]. apply evenCF_ext.
  eapply eqA_trans; [apply fwEnds_ext, fwD_cf|]. apply fwEnds_inv'; auto using wN.
  apply perOk_even, perOk_odd, P.
Qed.
Lemma bioDH : forall a, perOk p N a -> eqA (bioD (bioH a)) a.
Proof.
  intros a P. eapply eqA_trans; [apply bioD_cf|].
  eapply eqA_trans; [|apply (oddCF_inv w N (- qhalf)%Qc a Hw)]. rewrite <- neg_half. apply oddCF_ext.
  eapply eqA_trans; [apply evenCF_ext, bioEndsInv_ext, bioH_cf|].
  set (o := oddCF w N (- qhalf)%Qc 1%Qc a).
  assert (Po : perOk p N o) by apply perOk_odd, P.
  (* the end points and the inner even points are updated independently of each other *)
  eapply eqA_trans; [|apply (bioEnds_inv p w N o Hw wN Po)].
  set (e := bioEnds p w N o).
  intros j. pose proof (evenCF_end w N qquarter 1%Qc e) as [E0 EN].
  assert (Ew : forall cp cv c, evenCF w N cp cv c w = c w)
    by (intros; apply evenCF_off; auto; rewrite Z.mod_small; lia).
  assert (EwN : forall cp cv c, evenCF w N cp cv c (N - w) = c (N - w)).
  { intros; apply evenCF_off; auto. rewrite (mod_unique' _ _ (M - 1) w); lia. }
  set (f := evenCF w N qquarter 1%Qc e) in *.
  assert (G : eqA (bioEndsInv p w N f) (evenCF w N qquarter 1%Qc (bioEndsInv p w N e))).
  { intros i. pose proof (evenCF_end w N qquarter 1%Qc (bioEndsInv p w N e)) as [X0 XN].
    destruct (Z.eq_dec i 0) as [->|I0].
    { rewrite X0. unfold bioEndsInv. destruct p; ends; auto; rewrite ?E0, ?EN; unfold f; rewrite ?Ew, ?EwN; auto. }
    destruct (Z.eq_dec i N) as [->|IN].
    { rewrite XN. unfold bioEndsInv. destruct p; ends; auto; rewrite ?E0, ?EN; unfold f; rewrite ?Ew, ?EwN; auto. }
    transitivity (f i). { unfold bioEndsInv. destruct p; ends; auto. }
    unfold f, evenCF. destruct (_ && _) eqn:C; [|unfold bioEndsInv; destruct p; ends; auto].
    assert (Hm : i mod (2 * w) = 0) by lia. destruct (proj2 (mod2w_shift w i Hw) Hm) as [M1 M2].
    assert (i - w <> 0 /\ i - w <> N /\ i + w <> 0 /\ i + w <> N) as (?&?&?&?).
    { assert (0 < i < N) by (clear - C; lia). clear C Hm. split; [|split; [|split]]; intros X.
      - rewrite X, Z.mod_0_l in M1; clear - Hw M1; lia.
      - clear M1 M2. lia.
      - clear M1 M2. lia.
      - rewrite X, HN, Z.mod_mul in M2; clear - Hw M2; lia. }
    clear C Hm M1 M2. unfold bioEndsInv. destruct p; ends; auto. }
  rewrite (evenCF_ext w N _ _ _ _ G j).
  apply (evenCF_inv w N qquarter 1%Qc (- qquarter)%Qc 1%Qc); auto; qcf.
Qed.
Lemma bioHD : forall a, perOk p N a -> eqA (bioH (bioD a)) a.
Proof.
  intros a P. eapply eqA_trans; [apply bioH_cf|].
  set (e := bioEndsInv p w N a). set (v := evenCF w N (- qquarter)%Qc 1%Qc e).
  assert (O : eqA (oddCF w N (- qhalf)%Qc 1%Qc (bioD a)) v).
  { eapply eqA_trans; [apply oddCF_ext, bioD_cf|]. apply oddCF_inv; auto. }
  eapply eqA_trans; [apply evenCF_ext, bioEnds_ext, O|].
  assert (Ew : v w = e w) by (apply evenCF_off; auto; rewrite Z.mod_small; lia).
  assert (EwN : v (N - w) = e (N - w)).
  { apply evenCF_off; auto. rewrite (mod_unique' _ _ (M - 1) w); lia. }
  pose proof (evenCF_end w N (- qquarter)%Qc 1%Qc e) as [E0 EN]. fold v in E0, EN.
  pose proof (bioEnds_inv' p w N a Hw wN P) as I. fold e in I.
  intros j. destruct (Z.eq_dec j 0) as [->|J0].
  { pose proof (evenCF_end w N qquarter 1%Qc (bioEnds p w N v)) as [-> _]. rewrite <- (I 0).
    pose proof wN. unfold bioEnds. destruct p; ends; rewrite ?E0, ?EN, ?Ew, ?EwN; auto. }
  destruct (Z.eq_dec j N) as [->|JN].
  { pose proof (evenCF_end w N qquarter 1%Qc (bioEnds p w N v)) as [_ ->]. rewrite <- (I N).
    pose proof wN. unfold bioEnds. destruct p; ends; rewrite ?E0, ?EN, ?Ew, ?EwN; auto. }
  transitivity (evenCF w N qquarter 1%Qc v j).
  { unfold evenCF at 1 2. destruct (_ && _) eqn:C; [|unfold bioEnds; destruct p; ends; auto].
    assert (Hm : j mod (2 * w) = 0) by lia. destruct (proj2 (mod2w_shift w j Hw) Hm) as [M1 M2].
    assert (j - w <> 0 /\ j - w <> N /\ j + w <> 0 /\ j + w <> N) as (?&?&?&?).
    { assert (0 < j < N) by (clear - C; lia). clear C Hm. split; [|split; [|split]]; intros X.
      - rewrite X, Z.mod_0_l in M1; clear - Hw M1; lia.
      - clear M1 M2. lia.
      - clear M1 M2. lia.
      - rewrite X, HN, Z.mod_mul in M2; clear - Hw M2; lia. }
    clear C Hm M1 M2. unfold bioEnds. destruct p; ends; auto. }
  unfold v. rewrite (evenCF_inv w N (- qquarter)%Qc 1%Qc qquarter 1%Qc); auto; try qcf.
  unfold e, bioEndsInv. destruct p; ends; auto.
Qed.

Lemma fwH_per : forall a, perOk p N (fwH a).
Proof. intros a. eapply perOk_eqA; [apply eqA_sym, fwH_cf|]. apply perOk_odd, perOk_even, fwEnds_per. Qed.
Lemma fwD_per : forall a, perOk p N (fwD a).
Proof. intros a. apply fwEndsInv_per. Qed.
Lemma bioH_per : forall a, perOk p N (bioH a).
Proof. intros a. eapply perOk_eqA; [apply eqA_sym, bioH_cf|]. apply perOk_even, bioEnds_per. Qed.
Lemma bioD_per : forall a, perOk p N (bioD a).
Proof. intros a. eapply perOk_eqA; [apply eqA_sym, bioD_cf|]. apply perOk_odd, perOk_even, bioEndsInv_per. Qed.
Lemma fwH_ext : extOp fwH.
Proof. intros a b H. unfold fwH. apply oddLoop_ext, evenLoop_ext, fwEnds_ext, H. Qed.
Lemma fwD_ext : extOp fwD.
Proof. intros a b H. unfold fwD. apply fwEndsInv_ext, evenLoop_ext, oddLoop_ext, H. Qed.
Lemma bioH_ext : extOp bioH.
Proof. intros a b H. unfold bioH. apply evenLoop_ext, bioEnds_ext, oddLoop_ext, H. Qed.
Lemma bioD_ext : extOp bioD.
Proof. intros a b H. unfold bioD. apply oddLoop_ext, evenLoop_ext, bioEndsInv_ext, H. Qed.
End Level.

(** ** All levels *)

Lemma fold_inverse : forall ls (H D : Z -> arr -> arr) (P : arr -> Prop),
  (forall l, In l ls -> extOp (H l) /\ extOp (D l) /\ forall a, P a -> P (H l a) /\ eqA (D l (H l a)) a) ->
  forall a, P a -> eqA (fold_left (fun b l => D l b) (rev ls) (fold_left (fun b l => H l b) ls a)) a.
Proof.
  induction ls as [|l ls IH]; intros H D P HL a Pa; simpl; [apply eqA_refl|].
  rewrite fold_left_app. cbn [fold_left].
  destruct (HL l (or_introl eq_refl)) as (E1 & E2 & E3). destruct (E3 a Pa) as [Pa' I].
  eapply eqA_trans; [apply E2, (IH H D P); auto|exact I].
  intros; apply HL; now right.
Qed.

Lemma fold_ext : forall ls (H : Z -> arr -> arr), (forall l, In l ls -> extOp (H l)) ->
  extOp (fold_left (fun b l => H l b) ls).
Proof.
  induction ls as [|l ls IH]; intros H HL a b E; simpl; auto.
  apply IH; [intros; apply HL; now right|]. apply HL; auto. now left.
Qed.

Lemma fold_eq : forall ls (H G : Z -> arr -> arr), (forall l, In l ls -> extOp (H l)) ->
  (forall l a, In l ls -> eqA (H l a) (G l a)) ->
  forall a, eqA (fold_left (fun b l => H l b) ls a) (fold_left (fun b l => G l b) ls a).
Proof.
  induction ls as [|l ls IH]; intros H G HX HL a; simpl; [apply eqA_refl|].
  eapply eqA_trans; [|apply IH; intros; [apply HX|apply HL]; now right].
  apply fold_ext; [intros; apply HX; now right|]. apply HL. now left.
Qed.

Lemma pow2_level : forall L d, 0 <= d < L -> 0 < 2 ^ d /\ 0 < 2 ^ (L - d - 1) /\ 2 ^ L = 2 ^ (L - d - 1) * (2 * 2 ^ d).
Proof.
  intros L d H. pose proof (pow2_pos d ltac:(lia)). pose proof (pow2_pos (L - d - 1) ltac:(lia)).
  split; [|split]; auto. replace L with ((L - d - 1) + (1 + d)) at 1 by lia.
  rewrite !Z.pow_add_r by lia. reflexivity.
Qed.

(** Hat basis: closed form of the level loops. *)
Lemma hatHierLoop_cf : forall n L ll a, 0 <= ll - Z.of_nat n + 1 -> ll < L ->
  eqA (hatHierLoop n L ll (Z.shiftl 1 ll) (2 ^ (L - 1 - ll)) (2 * 2 ^ (L - 1 - ll)) (2 ^ (L - 1 - ll)) a)
      (fold_left (fun b d => oddCF (2 ^ d) (2 ^ L) (- qhalf)%Qc 1%Qc b) (zseq (L - 1 - ll) n) a).
Proof.
  induction n as [|n IH]; intros L ll a H1 H2; simpl; [apply eqA_refl|].
  destruct (pow2_level L (L - 1 - ll) ltac:(lia)) as (W & M & E).
  set (w := 2 ^ (L - 1 - ll)) in *. rewrite Z.sub_diag.
  replace (L - (L - 1 - ll) - 1) with ll in * by lia.
  rewrite (Z.shiftl_mul_pow2 1 ll) by lia. rewrite Z.mul_1_l.
  assert (S1 : eqA (stencilLoop (Z.to_nat (2 ^ ll)) w (2 * w) w (- qhalf)%Qc 1%Qc (- qhalf * a 0%Z)%Qc a)
                   (oddCF w (2 ^ L) (- qhalf)%Qc 1%Qc a)).
  { apply stencil_odd; auto. lia. }
  set (a' := stencilLoop _ _ _ _ _ _ _ _) in *.
  destruct n as [|n].
  { simpl. exact S1. }
  assert (P2 : 2 ^ (1 + ll - 1) = 2 ^ ll) by (f_equal; lia).
  assert (P3 : 2 ^ ll = 2 * 2 ^ (ll - 1)) by (replace ll with (1 + (ll - 1)) at 1 by lia; rewrite Z.pow_add_r by lia; reflexivity).
  replace (Z.shiftr (2 ^ ll) 1) with (Z.shiftl 1 (ll - 1)).
  2:{ rewrite Z.shiftr_div_pow2, Z.shiftl_mul_pow2 by lia. rewrite P3. change (2 ^ 1) with 2.
      rewrite (Z.mul_comm 2), Z.div_mul; lia. }
  assert (P4 : 2 ^ (L - 1 - (ll - 1)) = 2 * w).
  { unfold w. replace (L - 1 - (ll - 1)) with (1 + (L - 1 - ll)) by lia. rewrite Z.pow_add_r by lia. reflexivity. }
  replace (Z.shiftl 1 (L - ll)) with (2 ^ (L - 1 - (ll - 1))).
  2:{ rewrite Z.shiftl_mul_pow2 by lia. rewrite Z.mul_1_l. f_equal. lia. }
  replace (Z.shiftl (2 * w) 1) with (2 * 2 ^ (L - 1 - (ll - 1))).
  2:{ rewrite Z.shiftl_mul_pow2 by lia. rewrite P4. change (2 ^ 1) with 2. lia. }
  rewrite <- P4. eapply eqA_trans; [apply IH; lia|].
  replace (L - 1 - (ll - 1)) with (L - 1 - ll + 1) by lia.
  apply fold_ext; [intros; apply oddCF_ext|exact S1].
Qed.

Definition hatLevel (L d : Z) : arr -> arr := oddCF (2 ^ d) (2 ^ L) (- qhalf)%Qc 1%Qc.
Definition hatLevelInv (L d : Z) : arr -> arr := oddCF (2 ^ d) (2 ^ L) qhalf 1%Qc.

Lemma hatHier_cf : forall L lmin a, 0 <= lmin <= L ->
  eqA (hatHier L lmin a) (upLevels (hatLevel L) (L - lmin) a).
Proof.
  intros L lmin a H. unfold hatHier, upLevels, zrange. rewrite Z.sub_0_r.
  destruct (Z.eq_dec lmin L) as [->|].
  { rewrite Z.sub_diag. simpl. apply eqA_refl. }
  pose proof (hatHierLoop_cf (Z.to_nat (L - lmin)) L (L - 1) a ltac:(lia) ltac:(lia)) as X.
  rewrite Z.sub_diag in X. exact X.
Qed.

Lemma rev_zseq_S : forall n a, rev (zseq a (S n)) = (a + Z.of_nat n) :: rev (zseq a n).
Proof.
  intros. replace (S n) with (n + 1)%nat by lia. rewrite zseq_app. simpl. rewrite rev_app_distr. reflexivity.
Qed.

Lemma hatDehierLoop_cf : forall n L a, Z.of_nat n <= L ->
  let d := Z.of_nat n - 1 in
  eqA (hatDehierLoop n L (L - d) (Z.shiftl 1 (L - d - 1)) (Z.shiftl 1 d) (Z.shiftl 1 (d + 1)) (Z.shiftl 1 d) a)
      (fold_left (fun b d => oddCF (2 ^ d) (2 ^ L) qhalf 1%Qc b) (rev (zseq 0 n)) a).
Proof.
  induction n as [|n IH]; intros L a H d; cbn [hatDehierLoop]; [apply eqA_refl|].
  subst d. replace (Z.of_nat (S n) - 1) with (Z.of_nat n) in * by lia.
  rewrite rev_zseq_S. cbn [fold_left]. rewrite Z.add_0_l.
  destruct (pow2_level L (Z.of_nat n) ltac:(lia)) as (W & M & E).
  rewrite Z.sub_diag.
  rewrite (Z.shiftl_mul_pow2 1 (L - Z.of_nat n - 1)), (Z.shiftl_mul_pow2 1 (Z.of_nat n)),
    (Z.shiftl_mul_pow2 1 (Z.of_nat n + 1)) by lia. rewrite !Z.mul_1_l.
  set (w := 2 ^ Z.of_nat n) in *.
  assert (W2 : 2 ^ (Z.of_nat n + 1) = 2 * w).
  { rewrite Z.pow_add_r by lia. fold w. change (2 ^ 1) with 2. ring. }
  rewrite W2.
  assert (S1 : eqA (stencilLoop (Z.to_nat (2 ^ (L - Z.of_nat n - 1))) w (2 * w) w qhalf 1%Qc (qhalf * a 0%Z)%Qc a)
                   (oddCF w (2 ^ L) qhalf 1%Qc a)).
  { apply stencil_odd; auto. rewrite Z2Nat.id by lia. lia. }
  set (a' := stencilLoop _ _ _ _ _ _ _ _) in *.
  destruct n as [|n].
  { simpl. exact S1. }
  replace (L - Z.of_nat (S n) + 1) with (L - (Z.of_nat (S n) - 1)) by lia.
  replace (Z.shiftl (2 ^ (L - Z.of_nat (S n) - 1)) 1) with (Z.shiftl 1 (L - (Z.of_nat (S n) - 1) - 1)).
  2:{ rewrite !Z.shiftl_mul_pow2 by lia. rewrite Z.mul_1_l, <- Z.pow_add_r by lia. f_equal. lia. }
  replace (L - (L - (Z.of_nat (S n) - 1))) with (Z.of_nat (S n) - 1) by lia.
  assert (W3 : w = 2 * 2 ^ (Z.of_nat (S n) - 1)).
  { unfold w. replace (Z.of_nat (S n)) with (1 + (Z.of_nat (S n) - 1)) at 1 by lia. rewrite Z.pow_add_r by lia. reflexivity. }
  assert (W4 : Z.shiftl 1 (Z.of_nat (S n) - 1) = 2 ^ (Z.of_nat (S n) - 1)) by (rewrite Z.shiftl_mul_pow2 by lia; lia).
  assert (W5 : Z.shiftl 1 (Z.of_nat (S n) - 1 + 1) = w).
  { rewrite Z.shiftl_mul_pow2 by lia. unfold w. rewrite Z.mul_1_l. f_equal. lia. }
  replace (Z.shiftr (2 * w) 1) with (Z.shiftl 1 (Z.of_nat (S n) - 1 + 1)).
  2:{ rewrite W5, Z.shiftr_div_pow2 by lia. change (2 ^ 1) with 2. rewrite (Z.mul_comm 2), Z.div_mul; lia. }
  replace (Z.shiftr w 1) with (Z.shiftl 1 (Z.of_nat (S n) - 1)).
  2:{ rewrite W4, Z.shiftr_div_pow2 by lia. change (2 ^ 1) with 2. rewrite W3, (Z.mul_comm 2), Z.div_mul; lia. }
  eapply eqA_trans; [apply (IH L a' ltac:(lia))|].
  apply fold_ext; [intros; apply oddCF_ext|exact S1].
Qed.

Lemma hatDehier_cf : forall L lmin a, 0 <= lmin <= L ->
  eqA (hatDehier L lmin a) (downLevels (hatLevelInv L) (L - lmin) a).
Proof.
  intros L lmin a H. unfold hatDehier, downLevels, zrange. rewrite Z.sub_0_r.
  pose proof (hatDehierLoop_cf (Z.to_nat (L - lmin)) L a ltac:(lia)) as X. cbv zeta in X.
  rewrite Z2Nat.id in X by lia.
  replace (L - (L - lmin - 1)) with (lmin + 1) in X by lia.
  replace (lmin + 1 - 1) with lmin in X by lia.
  replace (L - lmin - 1 + 1) with (L - lmin) in X by lia. exact X.
Qed.

Lemma hat_roundtrip : forall L lmin a, 0 <= lmin <= L -> eqA (hatDehier L lmin (hatHier L lmin a)) a.
Proof.
  intros L lmin a H. eapply eqA_trans; [apply hatDehier_cf; auto|]. unfold downLevels.
  eapply eqA_trans.
  { apply (fold_ext _ (hatLevelInv L)); [intros; apply oddCF_ext|]. apply hatHier_cf; auto. }
  apply (fold_inverse _ (hatLevel L) (hatLevelInv L) (fun _ => True)); auto.
  intros d Hd. apply zrange_In in Hd. split; [apply oddCF_ext|]. split; [apply oddCF_ext|]. intros b _. split; auto.
  unfold hatLevelInv. rewrite neg_half. apply oddCF_inv. apply pow2_pos. lia.
Qed.

Lemma hat_roundtrip' : forall L lmin a, 0 <= lmin <= L -> eqA (hatHier L lmin (hatDehier L lmin a)) a.
Proof.
  intros L lmin a H. eapply eqA_trans; [apply hatHier_cf; auto|]. unfold upLevels.
  eapply eqA_trans.
  { apply (fold_ext _ (hatLevel L)); [intros; apply oddCF_ext|]. apply hatDehier_cf; auto. }
  unfold downLevels. rewrite <- (rev_involutive (zrange 0 (L - lmin))) at 1.
  apply (fold_inverse _ (hatLevelInv L) (hatLevel L) (fun _ => True)); auto.
  intros d Hd. apply in_rev in Hd. apply zrange_In in Hd. split; [apply oddCF_ext|]. split; [apply oddCF_ext|].
  intros b _. split; auto. apply oddCF_inv. apply pow2_pos. lia.
Qed.

(** Level loops of the other kernels. *)
Lemma pair_roundtrip : forall (H D : Z -> arr -> arr) (p : bool) N k,
  (forall d, 0 <= d < k -> extOp (H d) /\ extOp (D d) /\
     (forall a, perOk p N (H d a)) /\ (forall a, perOk p N a -> eqA (D d (H d a)) a)) ->
  forall a, perOk p N a -> eqA (downLevels D k (upLevels H k a)) a.
Proof.
  intros H D p N k HL a P. unfold downLevels, upLevels.
  apply (fold_inverse _ H D (perOk p N)); auto.
  intros d Hd. apply zrange_In in Hd. destruct (HL d Hd) as (A & B & C & E). auto.
Qed.

Lemma pair_roundtrip' : forall (H D : Z -> arr -> arr) (p : bool) N k,
  (forall d, 0 <= d < k -> extOp (H d) /\ extOp (D d) /\
     (forall a, perOk p N (D d a)) /\ (forall a, perOk p N a -> eqA (H d (D d a)) a)) ->
  forall a, perOk p N a -> eqA (upLevels H k (downLevels D k a)) a.
Proof.
  intros H D p N k HL a P. unfold downLevels, upLevels.
  rewrite <- (rev_involutive (zrange 0 k)) at 1.
  apply (fold_inverse _ D H (perOk p N)); auto.
  intros d Hd. apply in_rev in Hd. apply zrange_In in Hd. destruct (HL d Hd) as (A & B & C & E). auto.
Qed.

Lemma fw_step : forall p L d, 0 <= d < L -> L <= 28 ->
  (forall a, eqA (fwHierStep p (powerOfTwo L) d a) (fwH p (2 ^ d) (2 ^ L) a)) /\
  (forall a, eqA (fwDehierStep p (powerOfTwo L) d a) (fwD p (2 ^ d) (2 ^ L) a)) /\
  (forall a, eqA (bioHierStep p (powerOfTwo L) d a) (bioH p (2 ^ d) (2 ^ L) a)) /\
  (forall a, eqA (bioDehierStep p (powerOfTwo L) d a) (bioD p (2 ^ d) (2 ^ L) a)).
Proof.
  intros p L d Hd HL. unfold fwHierStep, fwDehierStep, bioHierStep, bioDehierStep, fwH, fwD, bioH, bioD.
  rewrite !powerOfTwo_spec by lia. cbv zeta. split; [|split; [|split]]; intros a j; reflexivity.
Qed.

Lemma fw_step_ext : forall p N d, extOp (fwHierStep p N d) /\ extOp (fwDehierStep p N d) /\
  extOp (bioHierStep p N d) /\ extOp (bioDehierStep p N d).
Proof.
  intros. split; [|split; [|split]]; intros a b H; [apply fwH_ext|apply fwD_ext|apply bioH_ext|apply bioD_ext]; auto.
Qed.

Lemma fw_roundtrip : forall p L lmin a, 0 <= lmin <= L -> L <= 28 -> perOk p (2 ^ L) a ->
  eqA (fwDehier p L lmin (fwHier p L lmin a)) a.
Proof.
  intros p L lmin a H HL P. unfold fwDehier, fwHier. apply (pair_roundtrip _ _ p (2 ^ L)); auto.
  intros d Hd. destruct (fw_step_ext p (powerOfTwo L) d) as (A & B & _). split; auto. split; auto.
  destruct (pow2_level L d ltac:(lia)) as (W & M & E).
  destruct (fw_step p L d ltac:(lia) HL) as (F1 & F2 & _). split.
  - intros b. eapply perOk_eqA; [apply eqA_sym, F1|]. eapply fwH_per; eauto.
  - intros b Pb. eapply eqA_trans; [apply F2|]. eapply eqA_trans; [apply fwD_ext, F1|]. eapply fwDH; eauto.
Qed.

Lemma fw_roundtrip' : forall p L lmin a, 0 <= lmin <= L -> L <= 28 -> perOk p (2 ^ L) a ->
  eqA (fwHier p L lmin (fwDehier p L lmin a)) a.
Proof.
  intros p L lmin a H HL P. unfold fwDehier, fwHier. apply (pair_roundtrip' _ _ p (2 ^ L)); auto.
  intros d Hd. destruct (fw_step_ext p (powerOfTwo L) d) as (A & B & _). split; auto. split; auto.
  destruct (pow2_level L d ltac:(lia)) as (W & M & E).
  destruct (fw_step p L d ltac:(lia) HL) as (F1 & F2 & _). split.
  - intros b. eapply perOk_eqA; [apply eqA_sym, F2|]. apply fwD_per.
  - intros b Pb. eapply eqA_trans; [apply F1|]. eapply eqA_trans; [apply fwH_ext, F2|]. eapply fwHD; eauto.
Qed.

Lemma bio_roundtrip : forall p L lmin a, 0 <= lmin <= L -> L <= 28 -> perOk p (2 ^ L) a ->
  eqA (bioDehier p L lmin (bioHier p L lmin a)) a.
Proof.
  intros p L lmin a H HL P. unfold bioDehier, bioHier. apply (pair_roundtrip _ _ p (2 ^ L)); auto.
  intros d Hd. destruct (fw_step_ext p (powerOfTwo L) d) as (_ & _ & A & B). split; auto. split; auto.
  destruct (pow2_level L d ltac:(lia)) as (W & M & E).
  destruct (fw_step p L d ltac:(lia) HL) as (_ & _ & F1 & F2). split.
  - intros b. eapply perOk_eqA; [apply eqA_sym, F1|]. eapply bioH_per; eauto.
  - intros b Pb. eapply eqA_trans; [apply F2|]. eapply eqA_trans; [apply bioD_ext, F1|]. eapply bioDH; eauto.
Qed.

Lemma bio_roundtrip' : forall p L lmin a, 0 <= lmin <= L -> L <= 28 -> perOk p (2 ^ L) a ->
  eqA (bioHier p L lmin (bioDehier p L lmin a)) a.
Proof.
  intros p L lmin a H HL P. unfold bioDehier, bioHier. apply (pair_roundtrip' _ _ p (2 ^ L)); auto.
  intros d Hd. destruct (fw_step_ext p (powerOfTwo L) d) as (_ & _ & A & B). split; auto. split; auto.
  destruct (pow2_level L d ltac:(lia)) as (W & M & E).
  destruct (fw_step p L d ltac:(lia) HL) as (_ & _ & F1 & F2). split.
  - intros b. eapply perOk_eqA; [apply eqA_sym, F2|]. eapply bioD_per; eauto.
  - intros b Pb. eapply eqA_trans; [apply F1|]. eapply eqA_trans; [apply bioH_ext, F2|]. eapply bioHD; eauto.
Qed.

(** The periodic kernels leave the two end points equal. *)
Lemma upLevels_per : forall (H : Z -> arr -> arr) p N k a,
  (forall d b, 0 <= d < k -> perOk p N b -> perOk p N (H d b)) -> perOk p N a -> perOk p N (upLevels H k a).
Proof.
  intros H p N k a HL. unfold upLevels.
  assert (G : forall ls b, (forall d, In d ls -> 0 <= d < k) -> perOk p N b ->
              perOk p N (fold_left (fun b0 d => H d b0) ls b)).
  { induction ls as [|d ls IH]; simpl; intros b Hd Pb; auto. }
  intros P. apply G; auto. intros d Hd. now apply zrange_In in Hd.
Qed.

Lemma downLevels_per : forall (H : Z -> arr -> arr) p N k a,
  (forall d b, 0 <= d < k -> perOk p N b -> perOk p N (H d b)) -> perOk p N a -> perOk p N (downLevels H k a).
Proof.
  intros H p N k a HL. unfold downLevels.
  assert (G : forall ls b, (forall d, In d ls -> 0 <= d < k) -> perOk p N b ->
              perOk p N (fold_left (fun b0 d => H d b0) ls b)).
  { induction ls as [|d ls IH]; simpl; intros b Hd Pb; auto. }
  intros P. apply G; auto. intros d Hd. apply in_rev in Hd. now apply zrange_In in Hd.
Qed.

(** ** Grids without boundary *)

Definition nbVal (s : Qc) (n w : Z) (a : arr) (j : Z) : Qc :=
  (a j + s * qhalf * (if j + w <? n then a (j + w)%Z else 0) + s * qhalf * (if j - w >? 0 then a (j - w)%Z else 0))%Qc.
Definition nbCF (s : Qc) (n w lo up : Z) (a : arr) : arr := fun j =>
  if (lo <=? j) && (j <? up) && ((j + 1) mod (2 * w) =? w) then nbVal s n w a j else a j.

Lemma nbVal_ext : forall s n w a b j, a j = b j -> a (j + w) = b (j + w) -> a (j - w) = b (j - w) ->
  nbVal s n w a j = nbVal s n w b j.
Proof. intros. unfold nbVal. rewrite H, H0, H1. auto. Qed.

Lemma nbCF_ext : forall s n w lo up, extOp (nbCF s n w lo up).
Proof. intros s n w lo up a b H j. unfold nbCF. destruct (_ && _); auto. now apply nbVal_ext. Qed.

Lemma nbPoint_val : forall s n w idx a, noBoundaryPoint s n w idx a = setA a idx (nbVal s n w a idx).
Proof. reflexivity. Qed.

Lemma nbFold_spec : forall cnt i s n w a, 0 < w ->
  let r := fold_left (fun b idx => noBoundaryPoint s n w idx b) (zprog i (2 * w) cnt) a in
  (forall k, 0 <= k < Z.of_nat cnt -> r (i + k * (2 * w)) = nbVal s n w a (i + k * (2 * w))) /\
  (forall j, (forall k, 0 <= k < Z.of_nat cnt -> j <> i + k * (2 * w)) -> r j = a j).
Proof.
  induction cnt as [|cnt IH]; intros i s n w a Hw r.
  - split; [lia|]. intros; reflexivity.
  - subst r. cbn [zprog fold_left]. rewrite nbPoint_val.
    destruct (IH (i + 2 * w) s n w (setA a i (nbVal s n w a i)) Hw) as [H1 H2].
    set (r := fold_left _ _ _) in *. split.
    + intros k Hk. destruct (Z.eq_dec k 0) as [->|Hk0].
      * rewrite Z.mul_0_l, Z.add_0_r. rewrite H2; [apply setA_same|]. intros k' Hk'. nia.
      * specialize (H1 (k - 1) ltac:(lia)).
        replace (i + 2 * w + (k - 1) * (2 * w)) with (i + k * (2 * w)) in H1 by ring.
        rewrite H1. apply nbVal_ext; apply setA_other; nia.
    + intros j Hj. rewrite H2.
      * apply setA_other. specialize (Hj 0 ltac:(lia)). lia.
      * intros k Hk E'. apply (Hj (k + 1)); lia.
Qed.

Lemma forCount_spec : forall a b s k, 0 < s -> 0 <= k -> (k < Z.of_nat (forCount a b s) <-> a + k * s < b).
Proof.
  intros a b s k Hs Hk. unfold forCount. destruct (Z.ltb_spec a b); [|simpl; nia].
  assert (0 <= (b - a + s - 1) / s) by (apply Z.div_pos; lia). rewrite Z2Nat.id by lia.
  pose proof (Z.div_mod (b - a + s - 1) s ltac:(lia)). pose proof (Z.mod_pos_bound (b - a + s - 1) s Hs). nia.
Qed.

Lemma nbLevel_cf : forall s n w first lo up a, 0 < w -> lo <= first -> (first + 1) mod (2 * w) = w ->
  (forall j, lo <= j < first -> (j + 1) mod (2 * w) <> w) ->
  eqA (noBoundaryLevel s n w first up a) (nbCF s n w lo up a).
Proof.
  intros s n w first lo up a Hw Hf Hm Hn j. unfold noBoundaryLevel.
  destruct (nbFold_spec (forCount first up (2 * w)) first s n w a Hw) as [H1 H2].
  assert (exists q, first + 1 = 2 * w * q + w) as [q D].
  { exists ((first + 1) / (2 * w)). etransitivity; [apply (Z.div_mod (first + 1) (2 * w)); clear - Hw; lia|]. now rewrite Hm. }
  assert (FC := fun k => forCount_spec first up (2 * w) k ltac:(lia)).
  unfold nbCF. destruct ((lo <=? j) && (j <? up) && ((j + 1) mod (2 * w) =? w)) eqn:C.
  - apply andb_prop in C as [C Cm]. apply Z.eqb_eq in Cm. assert (Hj : lo <= j < up) by (clear - C; lia).
    assert (Hfj : first <= j) by (destruct (Z_lt_ge_dec j first); [exfalso; apply (Hn j); auto; lia | lia]).
    assert (exists q', j + 1 = 2 * w * q' + w) as [q' D'].
    { exists ((j + 1) / (2 * w)). etransitivity; [apply (Z.div_mod (j + 1) (2 * w)); clear - Hw; lia|]. now rewrite Cm. }
    assert (Hk : j = first + (q' - q) * (2 * w)) by (clear - D D'; lia).
    assert (K0 : 0 <= q' - q) by (clear - Hk Hfj Hw; nia).
    rewrite Hk. apply H1. split; auto. apply FC; auto. rewrite <- Hk. lia.
  - apply H2. intros k Hk E. assert (B : first + k * (2 * w) < up) by (apply FC; apply Hk).
    assert (X : (j + 1) mod (2 * w) = w) by (apply (mod_unique' _ _ (q + k)); clear - Hw D E; lia).
    rewrite X, Z.eqb_refl in C. assert (first <= j) by (clear - Hk E Hw; nia). clear - C B E H Hf. lia.
Qed.

Lemma find_zseq : forall (f : Z -> bool) n a,
  match find f (zseq a n) with
  | Some i => a <= i < a + Z.of_nat n /\ f i = true /\ forall j, a <= j < i -> f j = false
  | None => forall j, a <= j < a + Z.of_nat n -> f j = false
  end.
Proof.
  induction n as [|n IH]; intros a; simpl; [lia|]. destruct (f a) eqn:F.
  - split; [lia|]. split; auto. lia.
  - specialize (IH (a + 1)). destruct (find f (zseq (a + 1) n)).
    + destruct IH as (H1 & H2 & H3). split; [lia|]. split; auto. intros j Hj.
      destruct (Z.eq_dec j a) as [->|]; auto. apply H3. lia.
    + intros j Hj. destruct (Z.eq_dec j a) as [->|]; auto. apply IH. lia.
Qed.

Lemma lev_mod : forall L p l, 1 <= l <= L -> 0 <= p <= 2 ^ L ->
  (lev L p = l <-> p mod (2 * 2 ^ (L - l)) = 2 ^ (L - l)).
Proof.
  intros L p l Hl Hp. rewrite lev_odd by auto. pose proof (pow2_pos (L - l) ltac:(lia)) as W.
  set (w := 2 ^ (L - l)) in *. clearbody w. split.
  - intros [m [Hm E]]. apply (mod_unique' _ _ m); lia.
  - intros E. pose proof (Z.div_mod p (2 * w) ltac:(lia)) as D. rewrite E in D.
    exists (p / (2 * w)). split; [apply Z.div_pos; lia|]. lia.
Qed.

Lemma nbHier_cf : forall L n lo up a, 1 <= L <= 28 -> 0 <= lo -> up <= 2 ^ L - 1 ->
  eqA (noBoundaryHier L n lo up a)
      (fold_left (fun b l => nbCF (- (1))%Qc n (2 ^ (L - l)) lo up b) (rev (zrange 1 (L + 1))) a).
Proof.
  intros L n lo up a HL Hlo Hup. unfold noBoundaryHier.
  assert (Step : forall l b, In l (rev (zrange 1 (L + 1))) ->
     eqA (let first := firstIndexOfLevel L lo up l in
          if first >? -1 then noBoundaryLevel (- (1))%Qc n (powerOfTwo (L - l)) first up b else b)
         (nbCF (- (1))%Qc n (2 ^ (L - l)) lo up b)).
  { intros l b Hl. apply in_rev in Hl. apply zrange_In in Hl. rewrite powerOfTwo_spec by lia.
    pose proof (pow2_pos (L - l) ltac:(lia)) as W.
    unfold firstIndexOfLevel, zrange. pose proof (find_zseq (fun i => getLevel 0 L i =? l) (Z.to_nat (up - lo)) lo) as F.
    assert (LV : forall i, 0 <= i < 2 ^ L - 1 ->
              (getLevel 0 L i = l <-> (i + 1) mod (2 * 2 ^ (L - l)) = 2 ^ (L - l))).
    { intros i Hi. rewrite getLevel_lev. unfold DecompProofs.gridPos. change (0 =? 0) with true. cbv iota.
      apply lev_mod; lia. }
    destruct (find _ _) as [i|]; cbv zeta.
    - destruct F as (F1 & F2 & F3). destruct (Z.gtb_spec i (-1)); [|lia].
      apply nbLevel_cf; auto; try lia.
      + apply Z.eqb_eq in F2. apply LV; auto; lia.
      + intros j Hj E. specialize (F3 j Hj). apply Z.eqb_neq in F3. apply F3, LV; auto; lia.
    - change (-1 >? -1) with false. cbv iota. intros j. unfold nbCF. destruct (_ && _) eqn:C; auto.
      exfalso. specialize (F j ltac:(lia)). apply Z.eqb_neq in F. apply F, LV; lia. }
  assert (G : forall ls b c, (forall l, In l ls -> In l (rev (zrange 1 (L + 1)))) -> eqA b c ->
    eqA (fold_left (fun b l => let first := firstIndexOfLevel L lo up l in
                        if first >? -1 then noBoundaryLevel (- (1))%Qc n (powerOfTwo (L - l)) first up b else b) ls b)
        (fold_left (fun b l => nbCF (- (1))%Qc n (2 ^ (L - l)) lo up b) ls c)).
  { induction ls as [|l ls IH]; intros b c Hin E; auto.
    cbn [fold_left]. apply IH; [intros; apply Hin; now right|].
    eapply eqA_trans; [apply Step, Hin; now left|]. now apply nbCF_ext. }
  apply G; auto using eqA_refl.
Qed.

Lemma nbDehier_cf : forall L n a, 1 <= L <= 28 ->
  eqA (noBoundaryDehier L n a)
      (fold_left (fun b l => nbCF 1%Qc n (2 ^ (L - l)) 0 n b) (zrange 2 (L + 1)) a).
Proof.
  intros L n a HL. unfold noBoundaryDehier.
  assert (Step : forall l b, In l (zrange 2 (L + 1)) ->
     eqA (noBoundaryLevel 1%Qc n (powerOfTwo (L - l)) (powerOfTwo (L - l) - 1) n b) (nbCF 1%Qc n (2 ^ (L - l)) 0 n b)).
  { intros l b Hl. apply zrange_In in Hl. rewrite powerOfTwo_spec by lia.
    pose proof (pow2_pos (L - l) ltac:(lia)) as W. apply nbLevel_cf; auto; try lia.
    - rewrite Z.mod_small; lia.
    - intros j Hj. rewrite Z.mod_small; lia. }
  assert (G : forall ls b c, (forall l, In l ls -> In l (zrange 2 (L + 1))) -> eqA b c ->
    eqA (fold_left (fun b l => noBoundaryLevel 1%Qc n (powerOfTwo (L - l)) (powerOfTwo (L - l) - 1) n b) ls b)
        (fold_left (fun b l => nbCF 1%Qc n (2 ^ (L - l)) 0 n b) ls c)).
  { induction ls as [|l ls IH]; intros b c Hin E; auto.
    cbn [fold_left]. apply IH; [intros; apply Hin; now right|].
    eapply eqA_trans; [apply Step, Hin; now left|]. now apply nbCF_ext. }
  apply G; auto using eqA_refl.
Qed.

Lemma nbCF_inv : forall s s' n w lo up a, 0 < w -> (s + s' = 0)%Qc ->
  eqA (nbCF s' n w lo up (nbCF s n w lo up a)) a.
Proof.
  intros s s' n w lo up a Hw Hs j. unfold nbCF at 1. destruct (_ && _) eqn:C.
  - assert (Hm : (j + 1) mod (2 * w) = w) by lia. destruct (proj1 (mod2w_shift w (j + 1) Hw) Hm) as [M1 M2].
    assert (U : forall i, (i + 1) mod (2 * w) = 0 -> nbCF s n w lo up a i = a i).
    { intros i Hi. unfold nbCF. destruct ((lo <=? i) && (i <? up) && ((i + 1) mod (2 * w) =? w)) eqn:C'; auto.
      apply andb_prop in C' as [_ C']. apply Z.eqb_eq in C'. exfalso. clear - Hw Hi C'. rewrite Hi in C'. lia. }
    unfold nbVal. rewrite (U (j + w)), (U (j - w)).
    + unfold nbCF. rewrite C. unfold nbVal.
      set (r := if j + w <? n then _ else _). set (l := if j - w >? 0 then _ else _). clearbody r l.
      transitivity (a j + (s + s') * (qhalf * r) + (s + s') * (qhalf * l))%Qc; [ring|]. rewrite Hs. ring.
    + replace (j - w + 1) with (j + 1 - w) by lia. auto.
    + replace (j + w + 1) with (j + 1 + w) by lia. auto.
  - unfold nbCF. now rewrite C.
Qed.

(** On the coarsest level there is nothing to do. *)
Lemma nbCF_level1 : forall s L lo up a, 1 <= L -> 0 <= lo -> up <= 2 ^ L - 1 ->
  eqA (nbCF s (2 ^ L - 1) (2 ^ (L - 1)) lo up a) a.
Proof.
  intros s L lo up a HL Hlo Hup j. unfold nbCF. destruct (_ && _) eqn:C; auto.
  destruct (pow2_level L (L - 1) ltac:(lia)) as (W & _ & E). replace (L - (L - 1) - 1) with 0 in E by lia.
  rewrite Z.pow_0_r, Z.mul_1_l in E. set (w := 2 ^ (L - 1)) in *. clearbody w.
  rewrite Z.mod_small in C by lia. assert (j = w - 1) by lia. subst j.
  unfold nbVal. destruct (Z.ltb_spec (w - 1 + w) (2 ^ L - 1)); [lia|]. destruct (Z.gtb_spec (w - 1 - w) 0); [lia|]. ring.
Qed.

Lemma zrange_cons' : forall a b, a < b -> zrange a b = a :: zrange (a + 1) b.
Proof.
  intros. unfold zrange. replace (Z.to_nat (b - a)) with (S (Z.to_nat (b - (a + 1)))) by lia. reflexivity.
Qed.

Lemma nb_roundtrip : forall L a, 1 <= L <= 28 ->
  let n := 2 ^ L - 1 in eqA (noBoundaryDehier L n (noBoundaryHier L n 0 n a)) a.
Proof.
  intros L a HL n. eapply eqA_trans; [apply nbDehier_cf; auto|].
  eapply eqA_trans.
  { apply (fold_ext _ (fun l => nbCF 1%Qc n (2 ^ (L - l)) 0 n)); [intros; apply nbCF_ext|].
    apply nbHier_cf; unfold n; lia. }
  rewrite (zrange_cons' 1) by lia. cbn [rev]. rewrite fold_left_app. cbn [fold_left].
  change (1 + 1) with 2.
  eapply eqA_trans.
  { apply (fold_ext _ (fun l => nbCF 1%Qc n (2 ^ (L - l)) 0 n)); [intros; apply nbCF_ext|].
    apply nbCF_level1; unfold n; lia. }
  rewrite <- (rev_involutive (zrange 2 (L + 1))) at 1.
  apply (fold_inverse _ (fun l => nbCF (- (1))%Qc n (2 ^ (L - l)) 0 n) (fun l => nbCF 1%Qc n (2 ^ (L - l)) 0 n) (fun _ => True)); auto.
  intros d Hd. apply in_rev in Hd. apply zrange_In in Hd. split; [apply nbCF_ext|]. split; [apply nbCF_ext|].
  intros b _. split; auto. apply nbCF_inv; [apply pow2_pos; lia|ring].
Qed.

Lemma nb_roundtrip' : forall L a, 1 <= L <= 28 ->
  let n := 2 ^ L - 1 in eqA (noBoundaryHier L n 0 n (noBoundaryDehier L n a)) a.
Proof.
  intros L a HL n. eapply eqA_trans; [apply nbHier_cf; unfold n; lia|].
  rewrite (zrange_cons' 1) by lia. cbn [rev]. rewrite fold_left_app. cbn [fold_left].
  change (1 + 1) with 2.
  eapply eqA_trans; [apply nbCF_level1; unfold n; lia|].
  eapply eqA_trans.
  { apply (fold_ext _ (fun l => nbCF (- (1))%Qc n (2 ^ (L - l)) 0 n)); [intros; apply nbCF_ext|].
    apply nbDehier_cf; auto. }
  apply (fold_inverse _ (fun l => nbCF 1%Qc n (2 ^ (L - l)) 0 n) (fun l => nbCF (- (1))%Qc n (2 ^ (L - l)) 0 n) (fun _ => True)); auto.
  intros d Hd. apply zrange_In in Hd. split; [apply nbCF_ext|]. split; [apply nbCF_ext|].
  intros b _. split; auto. apply nbCF_inv; [apply pow2_pos; lia|ring].
Qed.

(** ** Dependence on parts of the buffer only *)

Definition agree (S : Z -> Prop) (a b : arr) : Prop := forall j, S j -> a j = b j.

Lemma agree_eqA : forall S a b c d, eqA a c -> eqA b d -> agree S c d -> agree S a b.
Proof. intros S a b c d H1 H2 H j Hj. rewrite H1, H2. auto. Qed.

Lemma oddCF_agree : forall (S : Z -> Prop) w N cp cv a b,
  (forall j, S j -> 0 < j < N -> j mod (2 * w) = w -> S (j - w) /\ S (j + w)) ->
  agree S a b -> agree S (oddCF w N cp cv a) (oddCF w N cp cv b).
Proof.
  intros S w N cp cv a b HS H j Hj. unfold oddCF. destruct (_ && _) eqn:C; auto.
  assert (0 < j < N) by lia. assert (j mod (2 * w) = w) by (clear - C; apply andb_prop in C as [_ C]; now apply Z.eqb_eq).
  destruct (HS j Hj) as [S1 S2]; auto. rewrite (H j), (H (j - w)), (H (j + w)); auto.
Qed.

Lemma fold_agree : forall ls (H G : Z -> arr -> arr) S,
  (forall l a b, In l ls -> agree S a b -> agree S (H l a) (G l b)) ->
  forall a b, agree S a b -> agree S (fold_left (fun c l => H l c) ls a) (fold_left (fun c l => G l c) ls b).
Proof.
  induction ls as [|l ls IH]; intros H G S HL a b E; auto. cbn [fold_left]. apply IH.
  - intros; apply HL; auto. now right.
  - apply HL; auto. now left.
Qed.

(** [S] contains the hierarchical predecessors of its points above level [lmin]. *)
Definition predClosed (S : Z -> Prop) (L lmin : Z) : Prop := forall d j, 0 <= d < L - lmin -> S j -> 0 < j < 2 ^ L ->
  j mod (2 * 2 ^ d) = 2 ^ d -> S (j - 2 ^ d) /\ S (j + 2 ^ d).

Lemma hatHier_agree : forall S L lmin a b, 0 <= lmin <= L -> predClosed S L lmin ->
  agree S a b -> agree S (hatHier L lmin a) (hatHier L lmin b).
Proof.
  intros S L lmin a b H HS E.
  eapply agree_eqA; [apply hatHier_cf; auto|apply hatHier_cf; auto|]. unfold upLevels.
  apply (fold_agree _ (hatLevel L) (hatLevel L)); auto. intros d u v Hd. apply zrange_In in Hd.
  apply oddCF_agree. intros j Hj. now apply HS.
Qed.

Lemma hatDehier_agree : forall S L lmin a b, 0 <= lmin <= L -> predClosed S L lmin ->
  agree S a b -> agree S (hatDehier L lmin a) (hatDehier L lmin b).
Proof.
  intros S L lmin a b H HS E.
  eapply agree_eqA; [apply hatDehier_cf; auto|apply hatDehier_cf; auto|]. unfold downLevels.
  apply (fold_agree _ (hatLevelInv L) (hatLevelInv L)); auto. intros d u v Hd. apply in_rev in Hd. apply zrange_In in Hd.
  apply oddCF_agree. intros j Hj. now apply HS.
Qed.

Definition onRange (N j : Z) : Prop := 0 <= j <= N.

Lemma range_odd : forall w N M j, 0 < w -> N = M * (2 * w) -> 0 < j < N -> j mod (2 * w) = w ->
  onRange N (j - w) /\ onRange N (j + w).
Proof.
  intros w N M j Hw HN Hj E. pose proof (Z.div_mod j (2 * w) ltac:(lia)) as D. rewrite E in D. unfold onRange.
  set (q := j / (2 * w)) in *. clearbody q. clear E. assert (0 <= q) by nia. assert (q < M) by nia. nia.
Qed.

Lemma range_predClosed : forall L lmin, 0 <= lmin -> predClosed (onRange (2 ^ L)) L lmin.
Proof.
  intros L lmin Hm d j Hd _ Hj E. destruct (pow2_level L d ltac:(lia)) as (W & M & EE). eapply range_odd; eauto.
Qed.

Lemma evenCF_agree : forall w N cp cv a b, 0 < w -> agree (onRange N) a b ->
  (exists M, N = M * (2 * w)) ->
  agree (onRange N) (evenCF w N cp cv a) (evenCF w N cp cv b).
Proof.
  intros w N cp cv a b Hw H [M HN] j Hj. unfold evenCF. destruct (_ && _) eqn:C; auto.
  assert (0 < j < N) by lia. assert (E : j mod (2 * w) = 0) by (clear - C; apply andb_prop in C as [_ C]; now apply Z.eqb_eq).
  pose proof (Z.div_mod j (2 * w) ltac:(lia)) as D. rewrite E in D. unfold onRange in *.
  set (q := j / (2 * w)) in *. clearbody q. clear C E.
  assert (0 < q) by nia. assert (q < M) by nia.
  assert (0 <= j - w <= N) by nia. assert (0 <= j + w <= N) by nia.
  rewrite (H j), (H (j - w)), (H (j + w)); auto.
Qed.

Lemma ends_agree : forall p w N a b, 0 < w < N -> agree (onRange N) a b ->
  agree (onRange N) (fwEnds p w N a) (fwEnds p w N b) /\ agree (onRange N) (fwEndsInv p w N a) (fwEndsInv p w N b) /\
  agree (onRange N) (bioEnds p w N a) (bioEnds p w N b) /\ agree (onRange N) (bioEndsInv p w N a) (bioEndsInv p w N b).
Proof.
  intros p w N a b Hw H.
  assert (H0 := H 0 ltac:(unfold onRange; lia)). assert (H1 := H w ltac:(unfold onRange; lia)).
  assert (H2 := H N ltac:(unfold onRange; lia)). assert (H3 := H (N - w) ltac:(unfold onRange; lia)).
  split; [|split; [|split]]; intros j Hj; assert (H4 := H j Hj);
    unfold fwEnds, fwEndsInv, bioEnds, bioEndsInv; destruct p; ends; rewrite ?H0, ?H1, ?H2, ?H3; auto.
Qed.

Lemma step_agree : forall p w N M a b, 0 < w -> 0 < M -> N = M * (2 * w) -> agree (onRange N) a b ->
  agree (onRange N) (fwH p w N a) (fwH p w N b) /\ agree (onRange N) (fwD p w N a) (fwD p w N b) /\
  agree (onRange N) (bioH p w N a) (bioH p w N b) /\ agree (onRange N) (bioD p w N a) (bioD p w N b).
Proof.
  intros p w N M a b Hw HM HN H.
  assert (RO : forall j, onRange N j -> 0 < j < N -> j mod (2 * w) = w -> onRange N (j - w) /\ onRange N (j + w))
    by (intros; eapply range_odd; eauto).
  assert (EX : exists M, N = M * (2 * w)) by eauto.
  assert (WN : 0 < w < N) by nia.
  split; [|split; [|split]].
  - eapply agree_eqA; [eapply fwH_cf; eauto|eapply fwH_cf; eauto|].
    apply oddCF_agree; auto. apply evenCF_agree; auto. exact (proj1 (ends_agree p w N a b WN H)).
  - eapply agree_eqA; [eapply fwD_cf; eauto|eapply fwD_cf; eauto|].
    refine (proj1 (proj2 (ends_agree p w N _ _ WN _))). apply evenCF_agree; auto. apply oddCF_agree; auto.
  - eapply agree_eqA; [eapply bioH_cf; eauto|eapply bioH_cf; eauto|].
    apply evenCF_agree; auto. refine (proj1 (proj2 (proj2 (ends_agree p w N _ _ WN _)))). apply oddCF_agree; auto.
  - eapply agree_eqA; [eapply bioD_cf; eauto|eapply bioD_cf; eauto|].
    apply oddCF_agree; auto. apply evenCF_agree; auto. exact (proj2 (proj2 (proj2 (ends_agree p w N a b WN H)))).
Qed.

Lemma fw_agree : forall p L lmin a b, 0 <= lmin <= L -> L <= 28 -> agree (onRange (2 ^ L)) a b ->
  agree (onRange (2 ^ L)) (fwHier p L lmin a) (fwHier p L lmin b) /\
  agree (onRange (2 ^ L)) (fwDehier p L lmin a) (fwDehier p L lmin b) /\
  agree (onRange (2 ^ L)) (bioHier p L lmin a) (bioHier p L lmin b) /\
  agree (onRange (2 ^ L)) (bioDehier p L lmin a) (bioDehier p L lmin b).
Proof.
  intros p L lmin a b H HL E. unfold fwHier, fwDehier, bioHier, bioDehier, upLevels, downLevels.
  assert (G : forall d u v, 0 <= d < L - lmin -> agree (onRange (2 ^ L)) u v ->
    agree (onRange (2 ^ L)) (fwHierStep p (powerOfTwo L) d u) (fwHierStep p (powerOfTwo L) d v) /\
    agree (onRange (2 ^ L)) (fwDehierStep p (powerOfTwo L) d u) (fwDehierStep p (powerOfTwo L) d v) /\
    agree (onRange (2 ^ L)) (bioHierStep p (powerOfTwo L) d u) (bioHierStep p (powerOfTwo L) d v) /\
    agree (onRange (2 ^ L)) (bioDehierStep p (powerOfTwo L) d u) (bioDehierStep p (powerOfTwo L) d v)).
  { intros d u v Hd Huv. destruct (pow2_level L d ltac:(lia)) as (W & M & EE).
    destruct (fw_step p L d ltac:(lia) HL) as (F1 & F2 & F3 & F4).
    destruct (step_agree p _ _ _ u v W M EE Huv) as (G1 & G2 & G3 & G4).
    split; [|split; [|split]]; eapply agree_eqA; eauto. }
  split; [|split; [|split]].
  - apply (fold_agree _ (fwHierStep p (powerOfTwo L)) (fwHierStep p (powerOfTwo L))); auto. intros d u v Hd Huv. apply zrange_In in Hd. now apply G.
  - apply (fold_agree _ (fwDehierStep p (powerOfTwo L)) (fwDehierStep p (powerOfTwo L))); auto. intros d u v Hd Huv. apply in_rev in Hd. apply zrange_In in Hd. now apply G.
  - apply (fold_agree _ (bioHierStep p (powerOfTwo L)) (bioHierStep p (powerOfTwo L))); auto. intros d u v Hd Huv. apply zrange_In in Hd. now apply G.
  - apply (fold_agree _ (bioDehierStep p (powerOfTwo L)) (bioDehierStep p (powerOfTwo L))); auto. intros d u v Hd Huv. apply in_rev in Hd. apply zrange_In in Hd. now apply G.
Qed.

Lemma kernel_agree : forall f L lmin a b, 0 <= lmin <= L -> L <= 28 -> agree (onRange (2 ^ L)) a b ->
  agree (onRange (2 ^ L)) (hierKernel f L lmin a) (hierKernel f L lmin b) /\
  agree (onRange (2 ^ L)) (dehierKernel f L lmin a) (dehierKernel f L lmin b).
Proof.
  intros f L lmin a b H HL E.
  assert (HH : agree (onRange (2 ^ L)) (hatHier L lmin a) (hatHier L lmin b))
    by (apply hatHier_agree; auto; apply range_predClosed; lia).
  assert (HD : agree (onRange (2 ^ L)) (hatDehier L lmin a) (hatDehier L lmin b))
    by (apply hatDehier_agree; auto; apply range_predClosed; lia).
  destruct (fw_agree false L lmin a b H HL E) as (F1 & F2 & F3 & F4).
  destruct (fw_agree true L lmin a b H HL E) as (T1 & T2 & T3 & T4).
  destruct f; simpl; auto.
Qed.

(** Bases whose kernel identifies the two end points. *)
Definition perKernel (f : basis) : bool :=
  match f with FullWeightingPeriodic | BiorthogonalPeriodic => true | _ => false end.

Lemma kernel_roundtrip : forall f L lmin a, 0 <= lmin <= L -> L <= 28 -> perOk (perKernel f) (2 ^ L) a ->
  eqA (dehierKernel f L lmin (hierKernel f L lmin a)) a /\ eqA (hierKernel f L lmin (dehierKernel f L lmin a)) a.
Proof.
  intros f L lmin a H HL P.
  destruct f; simpl in *; auto using hat_roundtrip, hat_roundtrip', fw_roundtrip, fw_roundtrip', bio_roundtrip, bio_roundtrip'.
Qed.

Lemma hat_keeps_ends : forall (c : Qc) L ls a, let r := fold_left (fun b d => oddCF (2 ^ d) (2 ^ L) c 1%Qc b) ls a in
  r 0 = a 0 /\ r (2 ^ L) = a (2 ^ L).
Proof.
  intros c L. induction ls as [|d ls IH]; intros a; simpl; auto.
  destruct (IH (oddCF (2 ^ d) (2 ^ L) c 1%Qc a)) as [-> ->]. apply oddCF_end.
Qed.

Definition periodicBasis (f : basis) : bool :=
  match f with Hat | HatPeriodic | FullWeightingPeriodic | BiorthogonalPeriodic => true | _ => false end.

(** On the bases usable with one-sided grids, equal end points stay equal. *)
Lemma kernel_ends : forall f L lmin a, 0 <= lmin <= L -> L <= 28 -> periodicBasis f = true -> a 0 = a (2 ^ L) ->
  hierKernel f L lmin a 0 = hierKernel f L lmin a (2 ^ L) /\ dehierKernel f L lmin a 0 = dehierKernel f L lmin a (2 ^ L).
Proof.
  intros f L lmin a H HL HF E.
  assert (HH : hatHier L lmin a 0 = hatHier L lmin a (2 ^ L) /\ hatDehier L lmin a 0 = hatDehier L lmin a (2 ^ L)).
  { rewrite !(hatHier_cf L lmin a H), !(hatDehier_cf L lmin a H).
    destruct (hat_keeps_ends (- qhalf)%Qc L (zrange 0 (L - lmin)) a) as [A B].
    destruct (hat_keeps_ends qhalf L (rev (zrange 0 (L - lmin))) a) as [C D].
    unfold upLevels, downLevels, hatLevel, hatLevelInv. rewrite A, B, C, D. auto. }
  assert (PE : perOk true (2 ^ L) a) by (intros _; auto).
  assert (FF : forall d b, 0 <= d < L - lmin -> perOk true (2 ^ L) b ->
     perOk true (2 ^ L) (fwHierStep true (powerOfTwo L) d b) /\ perOk true (2 ^ L) (fwDehierStep true (powerOfTwo L) d b) /\
     perOk true (2 ^ L) (bioHierStep true (powerOfTwo L) d b) /\ perOk true (2 ^ L) (bioDehierStep true (powerOfTwo L) d b)).
  { intros d b Hd Pb. destruct (pow2_level L d ltac:(lia)) as (W & M & EE).
    destruct (fw_step true L d ltac:(lia) HL) as (F1 & F2 & F3 & F4).
    split; [|split; [|split]].
    - eapply perOk_eqA; [apply eqA_sym, F1|]. eapply fwH_per; eauto.
    - eapply perOk_eqA; [apply eqA_sym, F2|]. apply fwD_per.
    - eapply perOk_eqA; [apply eqA_sym, F3|]. eapply bioH_per; eauto.
    - eapply perOk_eqA; [apply eqA_sym, F4|]. eapply bioD_per; eauto. }
  assert (UP : forall H0, (forall d b, 0 <= d < L - lmin -> perOk true (2 ^ L) b -> perOk true (2 ^ L) (H0 d b)) ->
     upLevels H0 (L - lmin) a 0 = upLevels H0 (L - lmin) a (2 ^ L)).
  { intros H0 X. apply (upLevels_per H0 true (2 ^ L) (L - lmin) a X PE eq_refl). }
  assert (DN : forall H0, (forall d b, 0 <= d < L - lmin -> perOk true (2 ^ L) b -> perOk true (2 ^ L) (H0 d b)) ->
     downLevels H0 (L - lmin) a 0 = downLevels H0 (L - lmin) a (2 ^ L)).
  { intros H0 X. apply (downLevels_per H0 true (2 ^ L) (L - lmin) a X PE eq_refl). }
  destruct f; try discriminate HF; cbn [hierKernel dehierKernel]; auto; split.
  - apply UP. intros d b Hd Pb. exact (proj1 (FF d b Hd Pb)).
  - apply DN. intros d b Hd Pb. exact (proj1 (proj2 (FF d b Hd Pb))).
  - apply UP. intros d b Hd Pb. exact (proj1 (proj2 (proj2 (FF d b Hd Pb)))).
  - apply DN. intros d b Hd Pb. exact (proj2 (proj2 (proj2 (FF d b Hd Pb)))).
Qed.

(** ** Loading the buffer *)

Lemma fold_setA_out : forall (f : Z -> Qc) ls t j, ~ In j ls -> fold_left (fun t i => setA t i (f i)) ls t j = t j.
Proof.
  induction ls as [|i ls IH]; intros t j H; simpl; auto. rewrite IH; [|intros X; apply H; now right].
  apply setA_other. intros ->. apply H. now left.
Qed.

Lemma fold_setA_in : forall (f : Z -> Qc) ls t j, In j ls -> fold_left (fun t i => setA t i (f i)) ls t j = f j.
Proof.
  induction ls as [|i ls IH]; intros t j H; simpl; [inversion H|].
  destruct (in_dec Z.eq_dec j ls) as [Hin|Hout]; [auto|].
  destruct H as [<-|H]; [|contradiction]. rewrite fold_setA_out by auto. apply setA_same.
Qed.

Lemma loadPole_local : forall b n lo up stale remote local j, lo <= j < up -> up <= n ->
  loadPole b n lo up stale remote local j = local j.
Proof.
  intros. unfold loadPole. cbv zeta.
  assert (E : fold_left (fun t i => setA t i (local i)) (zrange lo up)
               (fold_left (fun t r => setA t (fst r) (snd r)) remote stale) j = local j)
    by (apply fold_setA_in; apply zrange_In; lia).
  destruct (b =? 1); auto. rewrite setA_other by lia. exact E.
Qed.

Lemma loadPole_end : forall n lo up stale remote local, 0 < n ->
  loadPole 1 n lo up stale remote local n = loadPole 1 n lo up stale remote local 0.
Proof. intros. unfold loadPole. cbv zeta. change (1 =? 1) with true. cbv iota. rewrite setA_same, setA_other by lia. auto. Qed.

(** Without remote values, loading the whole pole. *)
Lemma loadPole_serial : forall b L n stale local, 1 <= b <= 2 -> 1 <= L -> n = 2 ^ L + b - 1 ->
  agree (onRange (2 ^ L)) (loadPole b n 0 n stale [] local)
        (fun j => if (b =? 1) && (j =? 2 ^ L) then local 0 else local j).
Proof.
  intros b L n stale local Hb HL Hn j Hj. unfold onRange in Hj. pose proof (pow2_pos L ltac:(lia)).
  destruct (Z.eqb_spec b 1) as [->|]; cbn [andb].
  - destruct (Z.eqb_spec j (2 ^ L)) as [->|].
    + replace (2 ^ L) with n by lia. rewrite loadPole_end by lia. apply loadPole_local; lia.
    + apply loadPole_local; lia.
  - apply loadPole_local; lia.
Qed.

Lemma nb_agree : forall s L w lo up a b, 0 < w -> 0 <= lo -> up <= 2 ^ L - 1 ->
  agree (fun j => 0 <= j < 2 ^ L - 1) a b ->
  agree (fun j => 0 <= j < 2 ^ L - 1) (nbCF s (2 ^ L - 1) w lo up a) (nbCF s (2 ^ L - 1) w lo up b).
Proof.
  intros s L w lo up a b Hw Hlo Hup H j Hj. unfold nbCF.
  destruct (_ && _); auto. unfold nbVal. rewrite (H j Hj).
  destruct (Z.ltb_spec (j + w) (2 ^ L - 1)); destruct (Z.gtb_spec (j - w) 0);
    try rewrite (H (j + w)) by lia; try rewrite (H (j - w)) by lia; auto.
Qed.

Lemma nbKernel_agree : forall L a b, 1 <= L <= 28 -> let n := 2 ^ L - 1 in
  agree (fun j => 0 <= j < n) a b ->
  agree (fun j => 0 <= j < n) (noBoundaryHier L n 0 n a) (noBoundaryHier L n 0 n b) /\
  agree (fun j => 0 <= j < n) (noBoundaryDehier L n a) (noBoundaryDehier L n b).
Proof.
  intros L a b HL n H. split.
  - eapply agree_eqA; [apply nbHier_cf; unfold n; lia|apply nbHier_cf; unfold n; lia|].
    apply (fold_agree _ (fun l => nbCF (- (1))%Qc n (2 ^ (L - l)) 0 n) (fun l => nbCF (- (1))%Qc n (2 ^ (L - l)) 0 n)); auto.
    intros l u v Hl Huv. apply in_rev in Hl. apply zrange_In in Hl. apply nb_agree; auto; try (unfold n; lia); apply pow2_pos; lia.
  - eapply agree_eqA; [apply nbDehier_cf; auto|apply nbDehier_cf; auto|].
    apply (fold_agree _ (fun l => nbCF 1%Qc n (2 ^ (L - l)) 0 n) (fun l => nbCF 1%Qc n (2 ^ (L - l)) 0 n)); auto.
    intros l u v Hl Huv. apply zrange_In in Hl. apply nb_agree; auto; try (unfold n; lia); apply pow2_pos; lia.
Qed.
