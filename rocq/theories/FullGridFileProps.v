(** C120, C121: files, printing and norms of serial full grids. *)
From Verif Require Import Base TensorModel QcTools FullGridModel ParamsModel ParamsProps FullGridFileModel.
From Coq Require Import String QArith Qcanon List Lqa.
Import ListNotations.
Open Scope list_scope.
Open Scope Z_scope.
Ltac Zify.zify_post_hook ::= idtac.

(** ** C120 *)

(** A grid read from a file that was saved has all members of the saved one but the basis function. *)
Theorem C120_file_partial : forall g basis, exists g', readGrid (saveGrid g) basis = Some g' /\
  fDim g' = fDim g /\ fElements g' = fElements g /\ fCreated g' = fCreated g /\ fLevels g' = fLevels g /\ fPoints g' = fPoints g /\
  fBoundary g' = fBoundary g /\ fOffsets g' = fOffsets g /\ fData g' = fData g /\ fHierarchized g' = fHierarchized g.
Proof.
  intros [d n cr ls ps bs os da hi ba] basis. unfold readGrid, saveGrid, bindLoad. cbn [fDim fElements fCreated fLevels fPoints fBoundary fOffsets fData fHierarchized].
  rewrite !int_codec, bool_codec. rewrite !(vec_codec _ _ int_codec). rewrite (vec_codec _ _ real_codec).
  rewrite <- (app_nil_r (saveBool hi)), bool_codec. eexists; split; [reflexivity|]. cbn. repeat split.
Qed.

(** What [C120_file_partial] leaves out is false: the basis function given to the constructor is not that of the grid. *)
Theorem C120_basis_refuted : ~ (forall g b g', readGrid (saveGrid g) (Some b) = Some g' -> fBasis g' = Some b).
Proof.
  intros H. pose (g := setElements (makeGrid [1] [0] 7%nat) [Q2Qc 3]). destruct (C120_file_partial g (Some 7%nat)) as (g' & E & _).
  specialize (H g 7%nat g' E). vm_compute in E. injection E as <-. discriminate.
Qed.

(** So a grid that is read evaluates to the same values, and prints the same lines. *)
Theorem C120_same_function : forall g basis g', readGrid (saveGrid g) basis = Some g' ->
  (forall xs, fgEval (fLevels g') (fBoundary g') xs (fAt g') = fgEval (fLevels g) (fBoundary g) xs (fAt g)) /\ printGrid g' = printGrid g.
Proof.
  intros g basis g' E. destruct (C120_file_partial g basis) as (g2 & E2 & D & N & C & L & P & B & O & DA & H). rewrite E in E2. injection E2 as <-.
  assert (FA : forall i, fAt g' i = fAt g i) by (intros; unfold fAt; now rewrite DA).
  split; [|unfold printGrid, print1D, print2D, print3D, fAt; now rewrite D, P, O, DA].
  intros xs. rewrite L, B. unfold fAt. now rewrite DA.
Qed.

Lemma shift_map : forall {A} (f : Z -> A) c k a, map (fun j => f (c + j)) (zseq a k) = map f (zseq (c + a) k).
Proof. intros A f c k. induction k as [|k IH]; intros a; [reflexivity|]. cbn [zseq map]. f_equal. rewrite IH. now rewrite Z.add_assoc. Qed.

Lemma rows_concat : forall {A} (f : Z -> A) n m, 0 <= n -> 0 <= m ->
  concat (map (fun i => map (fun j => f (n * i + j)) (zrange 0 n)) (zrange 0 m)) = map f (zrange 0 (n * m)).
Proof.
  intros A f n m Hn Hm. revert m Hm. apply natlike_ind.
  - rewrite Z.mul_0_r. reflexivity.
  - intros m Hm IH. rewrite (zrange_split 0 m (Z.succ m)) by lia. rewrite (zrange_cons m (Z.succ m)) by lia. rewrite (zrange_nil (m + 1)) by lia.
    rewrite map_app, concat_app, IH. cbn [map concat]. rewrite app_nil_r.
    rewrite (zrange_split 0 (n * m) (n * Z.succ m)) by nia. rewrite map_app. f_equal.
    unfold zrange. replace (Z.to_nat (n * Z.succ m - n * m)) with (Z.to_nat (n - 0)) by (f_equal; ring).
    rewrite shift_map. now rewrite Z.add_0_r.
Qed.

Lemma whole : forall g, map (fAt g) (zrange 0 (Z.of_nat (List.length (fData g)))) = fData g.
Proof.
  intros g. unfold zrange, fAt. rewrite Z.sub_0_r, Nat2Z.id. generalize (fData g). intros l.
  assert (X : forall pre, map (fun i => nth (Z.to_nat i) (pre ++ l) (Q2Qc 0)) (zseq (Z.of_nat (List.length pre)) (List.length l)) = l).
  { induction l as [|x l IH]; intros pre; [reflexivity|]. cbn [List.length zseq map]. f_equal.
    - rewrite Nat2Z.id, app_nth2, Nat.sub_diag by lia. reflexivity.
    - specialize (IH (pre ++ [x])). rewrite <- app_assoc in IH. cbn [app] in IH. rewrite app_length in IH. cbn [List.length] in IH.
      replace (Z.of_nat (List.length pre) + 1) with (Z.of_nat (List.length pre + 1)) by lia. exact IH. }
  exact (X []).
Qed.

Lemma row_lengths : forall {A} (f : Z -> Z -> A) n (is : list Z), 0 <= n ->
  Forall (fun l => Z.of_nat (List.length l) = n) (map (fun i => map (f i) (zrange 0 n)) is).
Proof. intros A f n is Hn. apply Forall_forall. intros l Hl. apply in_map_iff in Hl as (i & <- & _). rewrite map_length, zrange_length. lia. Qed.

Lemma planes_concat : forall (f : Z -> Qc) a b m, 0 <= a -> 0 <= b -> 0 <= m ->
  concat (flat_map (fun k => map (fun i => map (fun j => f (a * b * k + a * i + j)) (zrange 0 a)) (zrange 0 b)) (zrange 0 m)) = map f (zrange 0 (a * b * m)).
Proof.
  intros f a b m Ha Hb Hm. rewrite <- (rows_concat f (a * b) m) by nia. rewrite flat_map_concat_map.
  induction (zrange 0 m) as [|k ks IH]; [reflexivity|]. cbn [map concat]. rewrite concat_app, IH. f_equal.
  rewrite <- (rows_concat (fun x => f (a * b * k + x)) a b) by lia. f_equal. apply map_ext. intros i. apply map_ext. intros j. f_equal. ring.
Qed.

(** A grid of up to three dimensions prints: every line has the points of the first dimension, and the lines in their order are the
    element vector, so that lines run over the second dimension first and then over the third. *)
Theorem C120_print : forall levels bs basis d, (1 <= List.length levels <= 3)%nat -> List.length bs = List.length levels ->
  Forall (fun n => 0 <= n) (fgSizes levels bs) -> Z.of_nat (List.length d) = fgElements levels bs ->
  exists lines, printGrid (setElements (makeGrid levels bs basis) d) = Some lines /\ concat lines = d /\
    Forall (fun l => Z.of_nat (List.length l) = nth 0 (fgSizes levels bs) 0) lines /\
    Z.of_nat (List.length lines) = nth 1 (fgSizes levels bs) 1 * nth 2 (fgSizes levels bs) 1.
Proof.
  intros levels bs basis d HL HB HS HD. set (g := setElements (makeGrid levels bs basis) d).
  assert (W := whole g). change (fData g) with d in W. rewrite HD in W.
  assert (LS : List.length (fgSizes levels bs) = List.length levels).
  { unfold fgSizes. clear - HB. revert bs HB. induction levels as [|l ls IH]; intros [|b bs] HB; cbn in *; try lia. f_equal. apply IH. lia. }
  unfold printGrid. change (fDim g) with (Z.of_nat (List.length levels)).
  unfold print1D, print2D, print3D. change (fPoints g) with (fgSizes levels bs). change (fOffsets g) with (offsetsFrom 1 (fgSizes levels bs)).
  unfold fgElements in W, HD. rewrite <- LS in HL |- *. clear LS HB.
  destruct (fgSizes levels bs) as [|n0 [|n1 [|n2 [|n3 r]]]]; cbn [List.length] in HL; try lia; cbn [List.length Z.of_nat Pos.of_succ_nat Pos.succ Z.eqb Pos.eqb nth offsetsFrom fold_left] in *.
  - inversion_clear HS as [|? ? H0 _]. eexists; split; [reflexivity|]. cbn [concat]. rewrite app_nil_r. split; [now rewrite <- W, Z.mul_1_l|].
    split; [|reflexivity]. constructor; [|constructor]. rewrite map_length, zrange_length. lia.
  - inversion_clear HS as [|? ? H0 HS']. inversion_clear HS' as [|? ? H1 _]. eexists; split; [reflexivity|]. split.
    { rewrite <- W, !Z.mul_1_l. rewrite <- (rows_concat (fAt g) n0 n1) by lia. reflexivity. }
    split; [now apply row_lengths|]. rewrite map_length, zrange_length. lia.
  - inversion_clear HS as [|? ? H0 HS']. inversion_clear HS' as [|? ? H1 HS2]. inversion_clear HS2 as [|? ? H2 _]. eexists; split; [reflexivity|]. split.
    { rewrite <- W, !Z.mul_1_l. rewrite <- (planes_concat (fAt g) n0 n1 n2) by lia. reflexivity. }
    split.
    { apply Forall_forall. intros l Hl. apply in_flat_map in Hl as (k & _ & Hl). apply in_map_iff in Hl as (i & <- & _). rewrite map_length, zrange_length. lia. }
    rewrite flat_map_concat_map. revert H2. clear - H1. intros H2.
    assert (X : forall ks, Z.of_nat (List.length (concat (map (fun k => map (fun i => map (fun j => fAt g (1 * n0 * n1 * k + 1 * n0 * i + j)) (zrange 0 n0)) (zrange 0 n1)) ks))) = n1 * Z.of_nat (List.length ks)).
    { induction ks as [|k ks IH]; cbn [map concat List.length]; [lia|]. rewrite app_length, map_length, zrange_length. lia. }
    rewrite X, zrange_length. lia.
Qed.

(** In three dimensions: the value in column [j] of line [i] of slice [k] is that of the grid point (j, i, k). *)
Theorem C120_print_point : forall L0 L1 L2 b0 b1 b2 basis d j i k lines,
  let levels := [L0; L1; L2] in let bs := [b0; b1; b2] in
  let n0 := fgPoints L0 b0 in let n1 := fgPoints L1 b1 in let n2 := fgPoints L2 b2 in
  0 <= j < n0 -> 0 <= i < n1 -> 0 <= k < n2 -> Z.of_nat (List.length d) = n0 * n1 * n2 ->
  printGrid (setElements (makeGrid levels bs basis) d) = Some lines ->
  nth (Z.to_nat j) (nth (Z.to_nat (k * n1 + i)) lines []) (Q2Qc 0) = nth (Z.to_nat (fgLinearIndex (fgSizes levels bs) [j; i; k])) d (Q2Qc 0).
Proof.
  intros L0 L1 L2 b0 b1 b2 basis d j i k lines levels bs n0 n1 n2 Hj Hi Hk HD E.
  assert (SZ : fgSizes levels bs = [n0; n1; n2]) by reflexivity.
  destruct (C120_print levels bs basis d) as (ls & E' & CC & FL & NL); [unfold levels; cbn [List.length]; lia|reflexivity|rewrite SZ; apply Forall_cons; [lia|apply Forall_cons; [lia|apply Forall_cons; [lia|apply Forall_nil]]]| |].
  { unfold fgElements. rewrite SZ. cbn [fold_left]. lia. }
  rewrite E in E'. injection E' as <-. rewrite SZ in FL, NL |- *. cbn [nth] in FL, NL.
  assert (X : fgLinearIndex [n0; n1; n2] [j; i; k] = n0 * (k * n1 + i) + j) by (unfold fgLinearIndex; cbn [offsetsFrom combine rev app fold_left fst snd]; ring).
  rewrite X, <- CC. clear E X. clearbody n0 n1 n2. assert (Hr : 0 <= k * n1 + i) by nia. assert (HR : (Z.to_nat (k * n1 + i) < List.length lines)%nat) by nia.
  replace (Z.to_nat (n0 * (k * n1 + i) + j)) with (Z.to_nat n0 * Z.to_nat (k * n1 + i) + Z.to_nat j)%nat by (assert (0 <= n0 * (k * n1 + i)) by (apply Z.mul_nonneg_nonneg; lia); rewrite (Z2Nat.inj_add (n0 * (k * n1 + i)) j), (Z2Nat.inj_mul n0 (k * n1 + i)) by lia; reflexivity).
  revert HR. generalize (Z.to_nat (k * n1 + i)). clear NL CC HD Hr. clear d. clear SZ. induction lines as [|l ls IH]; intros r HR; [cbn in HR; lia|].
  inversion_clear FL as [|? ? HL FL']. cbn [concat]. destruct r as [|r].
  - rewrite Nat.mul_0_r. cbn [nth Nat.add]. rewrite app_nth1 by lia. reflexivity.
  - cbn [nth]. rewrite app_nth2 by nia. rewrite (IH FL' r) by (cbn in HR; lia). f_equal. nia.
Qed.

(** ** C121 *)

Lemma qabs_nonneg : forall a, (0 <= qabs a)%Qc.
Proof. intros a. destruct (qabs_cases a) as [[H ->]|[H ->]]; auto. qlra. Qed.

Lemma max_fold : forall d m, (m <= fold_left (fun m x => if qltb m (qabs x) then qabs x else m) d m)%Qc /\
  (forall x, In x d -> (qabs x <= fold_left (fun m x => if qltb m (qabs x) then qabs x else m) d m)%Qc) /\
  (fold_left (fun m x => if qltb m (qabs x) then qabs x else m) d m = m \/ exists x, In x d /\ fold_left (fun m x => if qltb m (qabs x) then qabs x else m) d m = qabs x).
Proof.
  induction d as [|y d IH]; intros m; cbn [fold_left].
  - split; [apply Qcle_refl|]. split; [intros x []|now left].
  - destruct (qltb_spec m (qabs y)) as [Q|Q].
    + destruct (IH (qabs y)) as (A & B & C). split; [eapply Qcle_trans; [apply Qclt_le_weak; eauto|auto]|]. split.
      * intros x [<-|Hx]; auto.
      * right. destruct C as [C|(x & Hx & C)]; [exists y|exists x]; split; auto; [left|right]; auto.
    + destruct (IH m) as (A & B & C). split; auto. split.
      * intros x [<-|Hx]; auto. apply Qcnot_lt_le in Q. eapply Qcle_trans; eauto.
      * destruct C as [C|(x & Hx & C)]; auto. right. exists x. split; auto. now right.
Qed.

(** No absolute value of a value exceeds the maximum norm, and one of them is it. *)
Theorem C121_max : forall d r, lpNormResult 0 d r ->
  (forall x, In x d -> (qabs x <= r)%Qc) /\ (0 <= r)%Qc /\ (d <> [] -> exists x, In x d /\ r = qabs x).
Proof.
  intros d r H. cbn [lpNormResult] in H. subst r. unfold maxNorm. destruct (max_fold d (Q2Qc 0)) as (A & B & C). split; [exact B|]. split; [exact A|].
  intros NE. destruct C as [C|C]; auto. destruct d as [|x d]; [congruence|]. exists x. split; [now left|]. rewrite C.
  specialize (B x (or_introl eq_refl)). rewrite C in B. apply Qcle_antisym; auto. apply qabs_nonneg.
Qed.

Lemma pow_nonneg : forall x p, (0 <= x)%Qc -> (0 <= qpow x p)%Qc.
Proof. intros x p Hx. induction p as [|p IH]; cbn [qpow]; [discriminate|]. replace 0%Qc with (0 * qpow x p)%Qc by ring. now apply Qcmult_le_compat_r. Qed.
Lemma pow_mul : forall x y p, qpow (x * y)%Qc p = (qpow x p * qpow y p)%Qc.
Proof. intros x y p. induction p as [|p IH]; cbn [qpow]; [reflexivity|]. rewrite IH. ring. Qed.
Lemma pow_zero : forall p, qpow 0%Qc (S p) = 0%Qc. Proof. intros. cbn [qpow]. ring. Qed.
Lemma pow_one : forall p, qpow 1%Qc p = 1%Qc.
Proof. induction p as [|p IH]; [reflexivity|]. cbn [qpow]. rewrite IH. reflexivity. Qed.
Lemma pow_eq0 : forall x p, qpow x p = 0%Qc -> x = 0%Qc.
Proof. intros x p. induction p as [|p IH]; cbn [qpow]; intros H; [discriminate|]. apply Qcmult_integral in H as [H|H]; auto. Qed.
Lemma pow_le : forall x y p, (0 <= x)%Qc -> (x <= y)%Qc -> (qpow x p <= qpow y p)%Qc.
Proof.
  intros x y p Hx Hy. induction p as [|p IH]; cbn [qpow]; [apply Qcle_refl|].
  apply Qcle_trans with (x * qpow y p)%Qc.
  - rewrite (Qcmult_comm x (qpow x p)), (Qcmult_comm x (qpow y p)). now apply Qcmult_le_compat_r.
  - apply Qcmult_le_compat_r; auto. apply pow_nonneg. eapply Qcle_trans; eauto.
Qed.
Lemma pow_lt : forall x y p, (0 <= x)%Qc -> (x < y)%Qc -> (qpow x (S p) < qpow y (S p))%Qc.
Proof.
  intros x y p Hx Hy. cbn [qpow]. assert (Y : (0 < y)%Qc) by (eapply Qcle_lt_trans; eauto).
  assert (P : (0 < qpow y p)%Qc).
  { clear - Y. induction p as [|p IH]; cbn [qpow]; [reflexivity|]. replace 0%Qc with (0 * qpow y p)%Qc by ring. now apply Qcmult_lt_compat_r. }
  apply Qcle_lt_trans with (x * qpow y p)%Qc.
  - rewrite (Qcmult_comm x (qpow x p)), (Qcmult_comm x (qpow y p)). apply Qcmult_le_compat_r; auto. apply pow_le; auto. now apply Qclt_le_weak.
  - now apply Qcmult_lt_compat_r.
Qed.

(** The sum of the powers, written from the end. *)
Fixpoint powers (p : nat) (d : list Qc) : Qc := match d with [] => 0%Qc | x :: r => (qpow (qabs x) p + powers p r)%Qc end.
Lemma powSum_powers : forall p d, powSum p d = powers p d.
Proof.
  intros p d. unfold powSum. enough (X : forall a, fold_left (fun res x => (res + qpow (qabs x) p)%Qc) d a = (a + powers p d)%Qc) by (rewrite X; change (Q2Qc 0) with 0%Qc; ring).
  induction d as [|x d IH]; intros a; cbn [fold_left powers]; [ring|]. rewrite IH. ring.
Qed.
Lemma powers_nonneg : forall p d, (0 <= powers p d)%Qc.
Proof.
  intros p d. induction d as [|x d IH]; cbn [powers]; [apply Qcle_refl|]. replace 0%Qc with (0 + 0)%Qc by ring. apply Qcplus_le_compat; auto. apply pow_nonneg, qabs_nonneg.
Qed.
Lemma powers_ge : forall p d x, In x d -> (qpow (qabs x) p <= powers p d)%Qc.
Proof.
  intros p d. induction d as [|y d IH]; intros x []; cbn [powers].
  - subst. rewrite <- (Qcplus_0_r (qpow (qabs x) p)) at 1. apply Qcplus_le_compat; [apply Qcle_refl|apply powers_nonneg].
  - rewrite <- (Qcplus_0_l (qpow (qabs x) p)). apply Qcplus_le_compat; [apply pow_nonneg, qabs_nonneg|auto].
Qed.
Lemma powers_scale : forall p c d, (0 <= c)%Qc -> powers p (map (fun x => (x * c)%Qc) d) = (powers p d * qpow c p)%Qc.
Proof.
  intros p c d Hc. induction d as [|x d IH]; cbn [map powers]; [ring|]. rewrite IH, <- qabs_scale, pow_mul by auto. ring.
Qed.
Lemma norm_nonneg : forall p d r, lpNormResult p d r -> (0 <= r)%Qc.
Proof. intros [|p] d r H; [now apply C121_max in H|apply H]. Qed.

(** Every norm is well defined, bounds the values from above, and is zero for zero grids only. *)
Theorem C121_norm : forall p d r, lpNormResult p d r ->
  (forall r', lpNormResult p d r' -> r' = r) /\ (0 <= r)%Qc /\ (forall x, In x d -> (qabs x <= r)%Qc) /\ (r = 0%Qc <-> Forall (fun x => x = 0%Qc) d).
Proof.
  intros p d r H. assert (N := norm_nonneg _ _ _ H).
  assert (B : forall x, In x d -> (qabs x <= r)%Qc).
  { destruct p as [|p]; [now apply C121_max in H|]. destruct H as [_ E]. intros x Hx. apply Qcnot_lt_le. intros Q.
    apply (pow_lt _ _ p N) in Q. apply (Qclt_not_le _ _ Q). rewrite E, powSum_powers. now apply powers_ge. }
  split; [|split; [auto|split; [auto|]]].
  - intros r' H'. assert (N' := norm_nonneg _ _ _ H'). destruct p as [|p]; [congruence|]. destruct H as [_ E], H' as [_ E'].
    destruct (Qclt_le_dec r r') as [Q|Q]; [exfalso; apply (pow_lt _ _ p N) in Q; rewrite E, E' in Q; now apply Qclt_not_eq in Q|].
    apply Qcle_lt_or_eq in Q as [Q|Q]; auto. exfalso. apply (pow_lt _ _ p N') in Q. rewrite E, E' in Q. now apply Qclt_not_eq in Q.
  - split.
    + intros ->. apply Forall_forall. intros x Hx. specialize (B x Hx). destruct (qabs_cases x) as [[Q E]|[Q E]]; rewrite E in B; [qlra|]. apply Qcle_antisym; auto.
    + intros F. destruct p as [|p].
      * destruct d as [|x d]; [rewrite H; reflexivity|]. apply C121_max in H as (_ & _ & A). destruct A as (y & Hy & ->); [discriminate|].
        rewrite Forall_forall in F. rewrite (F y Hy). reflexivity.
      * destruct H as [_ E]. apply (pow_eq0 r (S p)). rewrite E, powSum_powers. clear - F. induction F as [|x d Hx F IH]; cbn [powers]; [reflexivity|].
        rewrite Hx, IH. change (qabs 0%Qc) with 0%Qc. rewrite pow_zero. ring.
Qed.

(** Normalizing a grid that is not zero divides every value by the norm; the norm is then 1. *)
Theorem C121_normalize_partial : forall p d r, lpNormResult p d r -> (exists x, In x d /\ x <> 0%Qc) ->
  exists d', normalizeBy r d = Some d' /\ List.length d' = List.length d /\
    (forall i, (i < List.length d)%nat -> (nth i d' 0 * r)%Qc = nth i d 0%Qc) /\ lpNormResult p d' 1%Qc.
Proof.
  intros p d r H (x0 & Hx0 & NZ). destruct (C121_norm p d r H) as (_ & N & B & Z0).
  assert (R0 : r <> 0%Qc). { intros E. apply Z0 in E. rewrite Forall_forall in E. now apply NZ, E. }
  assert (RP : (0 < r)%Qc) by (apply Qcle_lt_or_eq in N as [N|N]; [auto|now symmetry in N]).
  exists (map (fun x => (x / r)%Qc) d). split; [|split; [apply map_length|split]].
  - unfold normalizeBy. destruct d as [|y d]; [contradiction|]. destruct (Qc_eq_dec r (Q2Qc 0)); [contradiction|reflexivity].
  - intros i Hi. rewrite (nth_indep _ 0%Qc (0 / r)%Qc) by now rewrite map_length. rewrite (map_nth (fun x => (x / r)%Qc)). unfold Qcdiv.
    rewrite <- Qcmult_assoc, (Qcmult_comm (/ r)), Qcmult_inv_r by auto. ring.
  - assert (IP : (0 <= / r)%Qc).
    { apply Qcnot_lt_le. intros Q. assert (Y : (/ r * r < 0 * r)%Qc) by now apply Qcmult_lt_compat_r.
      rewrite (Qcmult_comm (/ r)), Qcmult_inv_r in Y by auto. replace (0 * r)%Qc with 0%Qc in Y by ring. discriminate. }
    destruct p as [|p].
    + cbn [lpNormResult]. symmetry. set (m := maxNorm _). destruct (C121_max (map (fun x => (x / r)%Qc) d) m eq_refl) as (U & _ & A).
      destruct A as (y & Hy & E); [destruct d; [contradiction|discriminate]|]. apply in_map_iff in Hy as (x & <- & Hx).
      apply Qcle_antisym.
      * rewrite E. unfold Qcdiv. rewrite <- qabs_scale by auto. rewrite <- (Qcmult_inv_r r R0). apply Qcmult_le_compat_r; auto.
      * destruct (C121_max d r H) as (_ & _ & A). destruct A as (z & Hz & Ez); [intros ->; contradiction|].
        specialize (U (z / r)%Qc). assert (IN : In (z / r)%Qc (map (fun x => (x / r)%Qc) d)) by (apply in_map_iff; eauto). specialize (U IN).
        unfold Qcdiv in U. rewrite <- qabs_scale in U by auto. rewrite <- Ez, Qcmult_inv_r in U by auto. exact U.
    + cbn [lpNormResult]. split; [discriminate|]. destruct H as [_ E]. rewrite pow_one, powSum_powers. unfold Qcdiv. rewrite powers_scale by auto.
      rewrite <- powSum_powers, <- E, <- pow_mul, Qcmult_inv_r by auto. now rewrite pow_one.
Qed.

(** A grid of zeros cannot be normalized: every value is divided by zero. *)
Theorem C121_zero_refuted : ~ (forall p d r, lpNormResult p d r -> normalizeBy r d <> None).
Proof. intros H. apply (H 2%nat [0%Qc; 0%Qc] 0%Qc); [split; [discriminate|reflexivity]|reflexivity]. Qed.

(** ** Examples *)

Definition exGrid (d : list Z) : fullGrid := setElements (makeGrid [1; 2; 1] [1; 0; 0] 5%nat) (map (fun z => Q2Qc (inject_Z z)) d).

Example C120_ex : let g := exGrid [1; 2; 3; 4; -5; 6] in
  option_map (fun g' => (fData g', fPoints g', fBasis g')) (readGrid (saveGrid g) (Some 5%nat)) = Some (fData g, [2; 3; 1], None) /\
  fgElements [1; 2; 1] [1; 0; 0] = 6 /\
  printGrid g = Some (map (map (fun z => Q2Qc (inject_Z z))) [[1; 2]; [3; 4]; [-5; 6]]).
Proof. vm_compute. repeat split. Qed.

Example C121_ex : let d := map (fun z => Q2Qc (inject_Z z)) [3; -4; 0] in
  lpNormResult 0 d (Q2Qc 4) /\ lpNormResult 1 d (Q2Qc 7) /\ lpNormResult 2 d (Q2Qc 5) /\
  option_map (map this) (normalizeBy (Q2Qc 5) d) = Some [3 # 5; -4 # 5; 0]%Q.
Proof.
  cbv zeta. split; [vm_compute; reflexivity|]. split; [split; [discriminate|vm_compute; reflexivity]|].
  split; [split; [discriminate|vm_compute; reflexivity]|vm_compute; reflexivity].
Qed.

Print Assumptions C120_file_partial.
Print Assumptions C120_basis_refuted.
Print Assumptions C120_same_function.
Print Assumptions C120_print.
Print Assumptions C120_print_point.
Print Assumptions C121_max.
Print Assumptions C121_norm.
Print Assumptions C121_normalize_partial.
Print Assumptions C121_zero_refuted.
