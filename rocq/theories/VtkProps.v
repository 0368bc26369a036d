(** C122: the VTK images of distributed full grids. *)
From Verif Require Import Base TensorModel QcTools FullGridFileModel FullGridFileProps VtkModel.
From Coq Require Import QArith Qcanon List Lqa.
Import ListNotations.
Open Scope Z_scope.
Ltac Zify.zify_post_hook ::= idtac.

Lemma all_values : forall data N, Z.of_nat (length data) = N -> map (fun i => nth (Z.to_nat i) data 0%Qc) (zrange 0 N) = data.
Proof. intros data N <-. exact (whole (FullGridObj 0 0 true [] [] [] [] data false None)). Qed.

Lemma first_rows : forall n0 n1 rest data, 0 <= n0 -> 0 <= n1 ->
  plotScalars (n0 :: n1 :: rest) data = Some (map (fun i => nth (Z.to_nat i) data 0%Qc) (zrange 0 (n0 * n1))).
Proof.
  intros n0 n1 rest data H0 H1. unfold plotScalars, localOffsets. cbn [nth_error].
  rewrite <- (rows_concat (fun i => nth (Z.to_nat i) data 0%Qc) n0 n1 H0 H1). cbn [offsetsFrom nth].
  destruct rest as [|e rest]; cbn [nth]; now rewrite Z.mul_1_l.
Qed.

(** Grids of two dimensions: the image has the extents in reverse order, a tuple for every point, and the tuples are the values in
    the order of the grid. *)
Theorem C122_two_dimensions_partial : forall n0 n1 o0 o1 data, 0 < n0 -> 0 < n1 -> Z.of_nat (length data) = n0 * n1 ->
  exists img, plotImage [n0; n1] [o0; o1] data = Some img /\ iDims img = [n1; n0; 1] /\ iOrigin img = [o1; o0; 0%Qc] /\ iScalars img = data /\
    (forall x y, 0 <= x < n1 -> 0 <= y < n0 -> pixel img x y 0 <> None).
Proof.
  intros n0 n1 o0 o1 data H0 H1 HD. unfold plotImage. cbn [length Nat.ltb Nat.leb]. rewrite first_rows by lia. rewrite all_values by auto.
  eexists; split; [reflexivity|]. cbn [iDims iScalars iOrigin]. split; [reflexivity|]. split; [reflexivity|]. split; [reflexivity|].
  intros x y Hx Hy. unfold pixel. cbn [iDims iScalars padTo3 rev app length Nat.sub repeat nth]. apply nth_error_Some.
  apply Nat2Z.inj_lt. rewrite HD, Z2Nat.id by nia. nia.
Qed.

(** The image has the dimensions in reverse order, so the point (j, i) of the grid is at (i, j, 0) in the image. The tuples are not
    reversed: the values there are those of the right points exactly if swapping the dimensions does not change the values. *)
Theorem C122_values_iff : forall n0 n1 o0 o1 data img, 0 < n0 -> 0 < n1 -> Z.of_nat (length data) = n0 * n1 ->
  plotImage [n0; n1] [o0; o1] data = Some img ->
  ((forall j i, 0 <= j < n0 -> 0 <= i < n1 -> pixel img i j 0 = nth_error data (Z.to_nat (j + n0 * i))) <->
   (forall j i, 0 <= j < n0 -> 0 <= i < n1 -> nth_error data (Z.to_nat (i + n1 * j)) = nth_error data (Z.to_nat (j + n0 * i)))).
Proof.
  intros n0 n1 o0 o1 data img H0 H1 HD E. destruct (C122_two_dimensions_partial n0 n1 o0 o1 data H0 H1 HD) as (img' & E' & DI & _ & SC & _).
  rewrite E in E'. injection E' as <-.
  assert (P : forall j i, pixel img i j 0 = nth_error data (Z.to_nat (i + n1 * j))).
  { intros j i. unfold pixel. rewrite DI, SC. cbn [nth]. do 2 f_equal. ring. }
  split; intros H j i Hj Hi; specialize (H j i Hj Hi); [now rewrite <- P|now rewrite P].
Qed.

Theorem C122_values_refuted : ~ (forall n0 n1 o0 o1 data img j i, 0 < n0 -> 0 < n1 -> Z.of_nat (length data) = n0 * n1 ->
  plotImage [n0; n1] [o0; o1] data = Some img -> 0 <= j < n0 -> 0 <= i < n1 ->
  pixel img i j 0 = nth_error data (Z.to_nat (j + n0 * i))).
Proof.
  intros H. set (data := map zq [1; 2; 3; 4; 5; 6]). destruct (C122_two_dimensions_partial 2 3 0%Qc 0%Qc data) as (img & E & _); [lia|lia|reflexivity|].
  assert (X := proj1 (C122_values_iff 2 3 0%Qc 0%Qc data img ltac:(lia) ltac:(lia) eq_refl E)).
  specialize (X (fun j i Hj Hi => H 2 3 0%Qc 0%Qc data img j i ltac:(lia) ltac:(lia) eq_refl E Hj Hi) 1 0 ltac:(lia) ltac:(lia)).
  vm_compute in X. discriminate.
Qed.

(** Grids of three dimensions: the tuples are those of the first slice. *)
Theorem C122_three_dimensions : forall n0 n1 n2 o0 o1 o2 data, 0 < n0 -> 0 < n1 -> 0 < n2 -> Z.of_nat (length data) = n0 * n1 * n2 ->
  exists img, plotImage [n0; n1; n2] [o0; o1; o2] data = Some img /\ iDims img = [n2; n1; n0] /\
    iScalars img = firstn (Z.to_nat (n0 * n1)) data /\
    (Z.of_nat (length (iScalars img)) = nth 0 (iDims img) 0 * nth 1 (iDims img) 0 * nth 2 (iDims img) 0 <-> n2 = 1).
Proof.
  intros n0 n1 n2 o0 o1 o2 data H0 H1 H2 HD. unfold plotImage. cbn [length Nat.ltb Nat.leb]. rewrite first_rows by lia.
  assert (X : map (fun i => nth (Z.to_nat i) data 0%Qc) (zrange 0 (n0 * n1)) = firstn (Z.to_nat (n0 * n1)) data).
  { assert (LF : Z.of_nat (length (firstn (Z.to_nat (n0 * n1)) data)) = n0 * n1) by (rewrite firstn_length; nia).
    rewrite <- (all_values (firstn (Z.to_nat (n0 * n1)) data) (n0 * n1) LF).
    apply map_ext_in. intros i Hi. apply zrange_In in Hi. rewrite <- (firstn_skipn (Z.to_nat (n0 * n1)) data) at 1. apply app_nth1. lia. }
  rewrite X. eexists; split; [reflexivity|]. cbn [iDims iScalars padTo3 rev app length Nat.sub repeat nth]. split; [reflexivity|]. split; [reflexivity|].
  rewrite firstn_length. split; intros Y; nia.
Qed.

(** Images have a value for every point: refuted for three dimensions. *)
Theorem C122_three_dimensions_refuted : ~ (forall n0 n1 n2 o0 o1 o2 data img x y z, 0 < n0 -> 0 < n1 -> 0 < n2 -> Z.of_nat (length data) = n0 * n1 * n2 ->
  plotImage [n0; n1; n2] [o0; o1; o2] data = Some img -> 0 <= x < n2 -> 0 <= y < n1 -> 0 <= z < n0 -> pixel img x y z <> None).
Proof.
  intros H. set (data := repeat 0%Qc 8). destruct (C122_three_dimensions 2 2 2 0%Qc 0%Qc 0%Qc data) as (img & E & DI & SC & _); [lia|lia|lia|reflexivity|].
  apply (H 2 2 2 0%Qc 0%Qc 0%Qc data img 0 0 1 ltac:(lia) ltac:(lia) ltac:(lia) eq_refl E ltac:(lia) ltac:(lia) ltac:(lia)).
  unfold pixel. rewrite DI, SC. reflexivity.
Qed.

(** Grids of one dimension: the loop reads the number of points of a second dimension. *)
Theorem C122_one_dimension_refuted : ~ (forall n o data, 0 < n -> Z.of_nat (length data) = n -> plotImage [n] [o] data <> None).
Proof. intros H. apply (H 1 0%Qc [0%Qc]); [lia|reflexivity|reflexivity]. Qed.

(** The axis of dimension [d] has the mesh width 1 / 2^L exactly if the process has 2^L + 1 points: with one process and boundary points
    at both ends. *)
Theorem C122_spacing_iff : forall sizes origin data img d L, plotImage sizes origin data = Some img -> (d < length sizes)%nat -> 0 <= L ->
  0 < nth d sizes 0 ->
  (nth (length sizes - 1 - d) (iSpacing img) None = Some (/ zq (2 ^ L))%Qc <-> nth d sizes 0 = 2 ^ L + 1).
Proof.
  intros sizes origin data img d L E Hd HL HN. unfold plotImage in E. destruct (3 <? length sizes)%nat eqn:L3; [discriminate|].
  destruct (plotScalars sizes data); [|discriminate]. injection E as <-. cbn [iSpacing]. unfold padTo3.
  rewrite app_nth1 by (rewrite rev_length, map_length; lia). rewrite rev_nth by (rewrite map_length; lia). rewrite map_length.
  replace (length sizes - S (length sizes - 1 - d))%nat with d by lia.
  rewrite (nth_indep _ None (plotSpacing 0)) by now rewrite map_length. rewrite map_nth. set (n := nth d sizes 0) in *.
  assert (P : 0 < 2 ^ L) by (apply Z.pow_pos_nonneg; lia).
  assert (NZ : forall k, 0 < k -> zq k <> 0%Qc).
  { intros k Hk X. assert (Y : (zq 0 < zq k)%Qc) by (apply zq_lt; lia). rewrite X, zq_0 in Y. now apply Qclt_not_eq in Y. }
  unfold plotSpacing. destruct (Z.eqb_spec n 1) as [E1|N1].
  - split; [discriminate|lia].
  - split; [|intros ->; do 2 f_equal; f_equal; lia]. intros X. injection X as X.
    assert (Y : zq (n - 1) = zq (2 ^ L)).
    { rewrite <- (Qcmult_1_r (zq (n - 1))), <- (Qcmult_inv_r (zq (2 ^ L))) by (apply NZ; lia).
      assert (Z : (/ zq (n - 1) = / zq (2 ^ L))%Qc) by (apply Qc_is_canon; cbn; rewrite X; reflexivity).
      rewrite <- Z. rewrite (Qcmult_comm (zq (2 ^ L))), Qcmult_assoc, Qcmult_inv_r by (apply NZ; lia). ring. }
    assert (A : n - 1 <= 2 ^ L) by (apply zq_le_inv; rewrite Y; apply Qcle_refl).
    assert (B : 2 ^ L <= n - 1) by (apply zq_le_inv; rewrite Y; apply Qcle_refl). lia.
Qed.

(** With one process and boundary points at both ends, positions along all axes are the coordinates of the grid points. *)
Theorem C122_positions_partial : forall sizes origin data img d L v, plotImage sizes origin data = Some img -> (d < length sizes)%nat ->
  length origin = length sizes -> 0 <= L -> nth d sizes 0 = 2 ^ L + 1 ->
  pixelPosition img (length sizes - 1 - d) v = Some (nth d origin 0 + zq v / zq (2 ^ L))%Qc.
Proof.
  intros sizes origin data img d L v E Hd HO HL HN. assert (P : 0 < 2 ^ L) by (apply Z.pow_pos_nonneg; lia).
  assert (S := proj2 (C122_spacing_iff sizes origin data img d L E Hd HL ltac:(lia)) HN). unfold pixelPosition. rewrite S. do 2 f_equal.
  unfold plotImage in E. destruct (3 <? length sizes)%nat eqn:L3; [discriminate|].
  destruct (plotScalars sizes data); [|discriminate]. injection E as <-. cbn [iOrigin]. unfold padTo3.
  rewrite app_nth1 by (rewrite rev_length; lia). rewrite rev_nth by lia. f_equal. lia.
Qed.

(** A symmetric grid of three by three points on one process, and a part of three by two points. *)
Example C122_ex : let data := map zq [1; 2; 3; 2; 4; 5; 3; 5; 6] in
  option_map (fun img => (iDims img, map (option_map this) (iSpacing img), option_map this (pixel img 2 1 0), option_map this (pixelPosition img 1 2)))
    (plotImage [3; 3] [0%Qc; 0%Qc] data) = Some ([3; 3; 1], [Some (1 # 2); Some (1 # 2); Some 0]%Q, Some 5%Q, Some 1%Q) /\
  option_map (fun img => (iDims img, map (option_map this) (iSpacing img))) (plotImage [3; 2] [0%Qc; 0%Qc] (map zq [1; 2; 3; 4; 5; 6]))
    = Some ([2; 3; 1], [Some 1; Some (1 # 2); Some 0]%Q).
Proof. vm_compute. split; reflexivity. Qed.

Print Assumptions C122_two_dimensions_partial.
Print Assumptions C122_values_iff.
Print Assumptions C122_values_refuted.
Print Assumptions C122_three_dimensions.
Print Assumptions C122_three_dimensions_refuted.
Print Assumptions C122_one_dimension_refuted.
Print Assumptions C122_spacing_iff.
Print Assumptions C122_positions_partial.
