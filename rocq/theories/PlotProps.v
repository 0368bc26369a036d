(** C97-C99: plot files. *)
From Coq Require Import String Ascii DecimalString DecimalNat.
From Verif Require Import Base TensorModel TensorProofs PartitionModel PartitionProofs DecompModel SubspaceModel SubspaceProofs Hier1dModel Hier1dProofs HierMassProofs DistPoleProofs
  HierNDProps HierLinProofs SparseGridProofs DofModel QcTools InterpModel InterpProofs LocalPartProofs InterpProps GridCommModel GridCommProps FileModel FileProps FullGridProofs PlotModel PlotProofs.
From Coq Require Import QArith Qcanon Permutation List.
Import ListNotations.
Open Scope list_scope.
Open Scope Z_scope.
Ltac Zify.zify_post_hook ::= idtac.

Lemma readValue_bytes : forall esz f p v, 0 < esz -> p + esz <= fLen f -> (forall k, 0 <= k < esz -> fByte f (p + k) = ByteOf v k) -> readValue esz f p = Some v.
Proof.
  intros esz f p v HE HL HB. unfold readValue. pose proof (HB 0 ltac:(lia)) as H0. rewrite Z.add_0_r in H0. rewrite H0.
  destruct (Z.leb_spec (p + esz) (fLen f)); [|lia]. cbn [andb]. replace (forallb _ _) with true; auto. symmetry. apply forallb_forall.
  intros k Hk. apply zrange_In in Hk. rewrite HB by lia. unfold sameValue. destruct (Qc_eq_dec v v); [|congruence]. now rewrite Z.eqb_refl.
Qed.
Lemma seq_range : forall sizes x, inBox sizes x -> 0 <= sequentialIndex sizes x < zprod sizes.
Proof. intros. rewrite sequentialIndex_lin. now apply lin_range. Qed.

(** ** C97 *)
(** A .raw file: whatever it contained, whatever the order in which the processes write, the value of every point is at its global
    linear index, first dimension fastest, and everything behind the last point is as before. *)
Theorem C97_raw_file : forall esz procs sizes decs order data F old, 0 < esz -> validDec procs sizes decs -> sizes <> [] ->
  smallParts procs sizes decs -> storesGrid procs sizes decs data F -> Permutation order (zrange 0 (zprod procs)) ->
  let f := writePlotRaw esz procs sizes decs order data old in
  (forall x, inBox sizes x -> readValue esz f (esz * sequentialIndex sizes x) = Some (F x)) /\
  fLen f = Z.max (fLen old) (esz * zprod sizes) /\ (forall p, esz * zprod sizes <= p -> fByte f p = fByte old p).
Proof.
  intros esz procs sizes decs order data F old HE V HN SM HS HP f.
  destruct (parts_spec procs sizes decs data F V HN HS SM order HP esz 0 old HE) as (A & B & C). fold (writePlotRaw esz procs sizes decs order data old) in A, B, C. fold f in A, B, C.
  rewrite Z.add_0_l in C. split; [|split]; auto.
  intros x Hx. pose proof (seq_range _ _ Hx). apply readValue_bytes; auto; [nia|]. intros k Hk. rewrite <- (A x k Hx Hk). f_equal.
Qed.

(** A new file consists of exactly the values. *)
Theorem C97_raw_length_partial : forall esz procs sizes decs order data F old, 0 < esz -> validDec procs sizes decs -> sizes <> [] ->
  smallParts procs sizes decs -> storesGrid procs sizes decs data F -> Permutation order (zrange 0 (zprod procs)) ->
  fLen old <= esz * zprod sizes ->
  fLen (writePlotRaw esz procs sizes decs order data old) = esz * zprod sizes.
Proof. intros. destruct (C97_raw_file esz procs sizes decs order data F old) as (_ & L & _); auto. rewrite L. lia. Qed.

(** Files with the header inside: the values begin behind four bytes per dimension and four more; the first byte is the dimension and the
    first six extents follow it. *)
Lemma int_bytes : forall n, 0 <= n < 2 ^ 31 -> toInt (n / 256 ^ 0 mod 256 + 256 * (n / 256 ^ 1 mod 256) + 65536 * (n / 256 ^ 2 mod 256) + 16777216 * (n / 256 ^ 3 mod 256)) = n.
Proof.
  intros n Hn. rewrite toInt_small.
  - change (256 ^ 0) with 1. change (256 ^ 1) with 256. change (256 ^ 2) with (256 * 256). change (256 ^ 3) with (256 * 256 * 256).
    rewrite Z.div_1_r, <- !Z.div_div by lia. rewrite (Z.mod_small (n / 256 / 256 / 256)).
    + pose proof (Z.div_mod n 256 ltac:(lia)). pose proof (Z.div_mod (n / 256) 256 ltac:(lia)). pose proof (Z.div_mod (n / 256 / 256) 256 ltac:(lia)). lia.
    + split; [repeat apply Z.div_pos; lia|]. rewrite !Z.div_div by lia. apply Z.div_lt_upper_bound; lia.
  - change (2 ^ 31) with 2147483648 in *. change (256 ^ 3) with 16777216 in *.
    pose proof (Z.mod_pos_bound (n / 256 ^ 0) 256 ltac:(lia)). pose proof (Z.mod_pos_bound (n / 256 ^ 1) 256 ltac:(lia)). pose proof (Z.mod_pos_bound (n / 256 ^ 2) 256 ltac:(lia)).
    assert (0 <= n / 16777216 < 128). { split; [apply Z.div_pos; lia|]. apply Z.div_lt_upper_bound; lia. }
    rewrite (Z.mod_small (n / 16777216)) by lia. lia.
Qed.

Lemma header_byte : forall sizes beyond f i k, 0 <= i < 6 -> 0 <= k < 4 ->
  fByte (writeHeader sizes beyond f) (1 + 4 * i + k) = intByte (if i <? Z.of_nat (length sizes) then nth (Z.to_nat i) sizes 0 else beyond i) k.
Proof.
  intros sizes beyond f i k Hi Hk. unfold writeHeader. rewrite byte_there by lia. replace (1 + 4 * i + k - 1) with (k + i * 4) by lia.
  rewrite Z.div_add, Z.div_small, Z.mod_add, Z.mod_small by lia. reflexivity.
Qed.
Lemma header_dim : forall sizes beyond f, (length sizes < 256)%nat -> fByte (writeHeader sizes beyond f) 0 = Byte (Z.of_nat (length sizes)).
Proof. intros. unfold writeHeader. rewrite byte_elsewhere by lia. rewrite byte_there by lia. rewrite Z.mod_small by lia. reflexivity. Qed.
Lemma header_len : forall sizes beyond f, fLen (writeHeader sizes beyond f) = Z.max (fLen f) 25.
Proof. intros. unfold writeHeader. rewrite !len_write by lia. lia. Qed.

Theorem C97_file_with_header : forall esz procs sizes decs order beyond data F old, 0 < esz -> validDec procs sizes decs -> sizes <> [] -> (length sizes < 256)%nat ->
  smallParts procs sizes decs -> storesGrid procs sizes decs data F -> Permutation order (zrange 0 (zprod procs)) ->
  let f := writePlot esz procs sizes decs order beyond data old in
  let d := Z.of_nat (length sizes) in
  (forall x, inBox sizes x -> readValue esz f (4 * (1 + d) + esz * sequentialIndex sizes x) = Some (F x)) /\
  fByte f 0 = Byte d /\
  (forall i, 0 <= i < Z.min d 6 -> 0 <= nth (Z.to_nat i) sizes 0 < 2 ^ 31 -> readInt f (1 + 4 * i) = Some (nth (Z.to_nat i) sizes 0)).
Proof.
  intros esz procs sizes decs order beyond data F old HE V HN HD SM HS HP f d.
  destruct (parts_spec procs sizes decs data F V HN HS SM order HP esz ((1 + Z.of_nat (length sizes)) * 4) (writeHeader sizes beyond old) HE) as (A & B & C).
  fold (writePlot esz procs sizes decs order beyond data old) in A, B, C. fold f in A, B, C. fold d in A, B, C. split; [|split].
  - intros x Hx. pose proof (seq_range _ _ Hx). apply readValue_bytes; auto; [nia|]. intros k Hk. rewrite <- (A x k Hx Hk). f_equal. lia.
  - rewrite B by lia. now apply header_dim.
  - intros i Hi HI. unfold readInt.
    assert (EB : forall k, 0 <= k < 4 -> fByte f (1 + 4 * i + k) = Byte (nth (Z.to_nat i) sizes 0 / 256 ^ k mod 256)).
    { intros k Hk. rewrite B by lia. rewrite header_byte by lia. destruct (Z.ltb_spec i (Z.of_nat (length sizes))); [|lia]. reflexivity. }
    pose proof (EB 0 ltac:(lia)) as E0. rewrite Z.add_0_r in E0. rewrite E0, (EB 1), (EB 2), (EB 3) by lia.
    rewrite header_len in C. destruct (Z.leb_spec (1 + 4 * i + 4) (fLen f)); [|lia]. f_equal. now apply int_bytes.
Qed.

(** The tool errorCalc reads the dimension as an int; it gets the dimension plus 256 times the first extent, for every grid. *)
Theorem C97_header_of_tool_refuted : forall esz procs sizes decs order beyond data F old, 0 < esz -> validDec procs sizes decs -> sizes <> [] -> (length sizes < 256)%nat ->
  smallParts procs sizes decs -> storesGrid procs sizes decs data F -> Permutation order (zrange 0 (zprod procs)) -> 0 < nth 0 sizes 0 < 2 ^ 23 ->
  let f := writePlot esz procs sizes decs order beyond data old in
  exists dim res pos, toolHeader f = Some (dim, res, pos) /\ dim = Z.of_nat (length sizes) + 256 * nth 0 sizes 0 /\ dim <> Z.of_nat (length sizes).
Proof.
  intros esz procs sizes decs order beyond data F old HE V HN HD SM HS HP H0 f.
  destruct (parts_spec procs sizes decs data F V HN HS SM order HP esz ((1 + Z.of_nat (length sizes)) * 4) (writeHeader sizes beyond old) HE) as (_ & B & C).
  fold (writePlot esz procs sizes decs order beyond data old) in B, C. fold f in B, C.
  assert (L : (0 < length sizes)%nat) by (destruct sizes; [congruence|cbn; lia]).
  assert (EB : forall k, 0 <= k < 3 -> fByte f (1 + k) = Byte (nth 0 sizes 0 / 256 ^ k mod 256)).
  { intros k Hk. rewrite B by lia. pose proof (header_byte sizes beyond old 0 k ltac:(lia) ltac:(lia)) as E. replace (1 + 4 * 0 + k) with (1 + k) in E by lia. rewrite E.
    destruct (Z.ltb_spec 0 (Z.of_nat (length sizes))); [|lia]. reflexivity. }
  pose proof (EB 0 ltac:(lia)) as E1. pose proof (EB 1 ltac:(lia)) as E2. pose proof (EB 2 ltac:(lia)) as E3. cbn [Z.add] in E1, E2, E3. change (1 + 0) with 1 in E1. change (1 + 1) with 2 in E2. change (1 + 2) with 3 in E3.
  assert (RI : readInt f 0 = Some (Z.of_nat (length sizes) + 256 * nth 0 sizes 0)).
  { unfold readInt. change (0 + 1) with 1. change (0 + 2) with 2. change (0 + 3) with 3. rewrite E1, E2, E3, (B 0), header_dim by (auto; lia).
    rewrite header_len in C. destruct (Z.leb_spec (0 + 4) (fLen f)); [|lia]. f_equal. set (n := nth 0 sizes 0) in *. change (2 ^ 23) with 8388608 in H0.
    change (256 ^ 0) with 1. change (256 ^ 1) with 256. change (256 ^ 2) with (256 * 256). rewrite Z.div_1_r, <- Z.div_div by lia.
    rewrite (Z.mod_small (n / 256 / 256)).
    - pose proof (Z.div_mod n 256 ltac:(lia)). pose proof (Z.div_mod (n / 256) 256 ltac:(lia)).
      replace (Z.of_nat (length sizes) + 256 * (n mod 256) + 65536 * (n / 256 mod 256) + 16777216 * (n / 256 / 256)) with (Z.of_nat (length sizes) + 256 * n) by lia.
      apply toInt_small. change (2 ^ 31) with 2147483648. lia.
    - rewrite Z.div_div by lia. split; [apply Z.div_pos; lia|]. apply Z.div_lt_upper_bound; lia. }
  unfold toolHeader. rewrite RI. eexists _, _, _. split; [reflexivity|]. lia.
Qed.

(** ** C98 *)
Lemma append_cancel : forall a b s : string, (a ++ s)%string = (b ++ s)%string -> a = b.
Proof.
  assert (L : forall a b, String.length (a ++ b)%string = (String.length a + String.length b)%nat). { induction a; intros; cbn; auto. }
  induction a as [|c a IH]; intros [|e b] s E; auto.
  - exfalso. apply (f_equal String.length) in E. rewrite !L in E. cbn in E. lia.
  - exfalso. apply (f_equal String.length) in E. rewrite !L in E. cbn in E. lia.
  - cbn in E. injection E as -> E. f_equal. eauto.
Qed.
Lemma insert_inj : forall c s i j x, insertBefore c i s = Some x -> insertBefore c j s = Some x -> i = j.
Proof.
  intros c s. induction s as [|a s IH]; intros i j x; cbn [insertBefore]; [discriminate|]. destruct (Ascii.eqb a c).
  - intros E1 E2. injection E1 as E1. injection E2 as E2. rewrite <- E2 in E1. now apply append_cancel in E1.
  - destruct (insertBefore c i s) as [y|] eqn:E1; [|discriminate]. destruct (insertBefore c j s) as [z|] eqn:E2; [|discriminate]. cbn. intros A B. injection A as A. injection B as B.
    assert (z = y) by congruence. subst z. eauto.
Qed.
(** Does the name contain the character? *)
Definition containsChar (c : ascii) (s : string) : Prop := exists a b : string, s = (a ++ String c b)%string.
Lemma insert_some : forall c s i, containsChar c s -> exists x, insertBefore c i s = Some x.
Proof.
  intros c s i (a & b & ->). induction a as [|e a IH]; cbn [append insertBefore].
  - rewrite Ascii.eqb_refl. eauto.
  - destruct (Ascii.eqb e c); eauto. destruct IH as [x ->]. cbn. eauto.
Qed.

(** A name with a dot that does not end in .vtk: different grids get different files. *)
Theorem C98_distinct_files_partial : forall filename g g', containsChar "."%char filename -> endsWith filename ".vtk"%string = false ->
  plotName filename g = plotName filename g' -> g = g'.
Proof.
  intros fn g g' HC HV. unfold plotName. rewrite HV. destruct (insert_some "."%char fn ("_" ++ gridNumber g)%string HC) as [x E1]. destruct (insert_some "."%char fn ("_" ++ gridNumber g')%string HC) as [y E2].
  rewrite E1, E2. intros <-. pose proof (insert_inj _ _ _ _ _ E1 E2) as E. cbn in E. injection E as E. unfold gridNumber in E.
  apply (f_equal NilEmpty.uint_of_string) in E. rewrite !NilEmpty.usu in E. injection E as E. now apply Unsigned.to_uint_inj.
Qed.

(** ... so afterwards every grid is in its own file, as if it had been the only one. *)
Theorem C98_every_grid_plotted_partial : forall filename write n fs g, containsChar "."%char filename -> endsWith filename ".vtk"%string = false -> (g < n)%nat ->
  plotGrids filename write n fs (plotName filename g) = write g (fs (plotName filename g)).
Proof.
  intros fn write n fs g HC HV Hg. unfold plotGrids.
  assert (G : forall l fs, NoDup l -> fold_left (fun fs g name => if String.eqb name (plotName fn g) then write g (fs name) else fs name) l fs (plotName fn g)
     = if existsb (Nat.eqb g) l then write g (fs (plotName fn g)) else fs (plotName fn g)).
  { induction l as [|k l IH]; intros fs0 ND; cbn [fold_left existsb]; auto. inversion ND; subst. rewrite IH by auto.
    destruct (String.eqb_spec (plotName fn g) (plotName fn k)) as [E|E].
    - apply C98_distinct_files_partial in E; auto. subst k. rewrite Nat.eqb_refl. cbn [orb].
      destruct (existsb (Nat.eqb g) l) eqn:EX; auto. apply existsb_exists in EX as (k & HI & EK). apply Nat.eqb_eq in EK. subst k. contradiction.
    - destruct (Nat.eqb_spec g k) as [->|NK]; [congruence|]. reflexivity. }
  rewrite G by apply seq_NoDup. replace (existsb (Nat.eqb g) (seq 0 n)) with true; auto. symmetry. apply existsb_exists. exists g. split; [apply in_seq; lia|apply Nat.eqb_refl].
Qed.

(** A .vtk file, or a name without a dot: all grids are written to the same file. *)
Theorem C98_same_file_refuted : (exists filename, endsWith filename ".vtk"%string = true /\ forall g, plotName filename g = filename) /\
  (exists filename, ~ containsChar "."%char filename /\ forall g, plotName filename g = filename).
Proof.
  split.
  - exists "out.vtk"%string. split; [reflexivity|]. intros g. reflexivity.
  - exists "out"%string. split; [|intros g; reflexivity]. intros (a & b & E).
    destruct a as [|c1 [|c2 [|c3 a]]]; cbn in E; try discriminate. injection E as _ _ _ E. destruct a; discriminate.
Qed.
(** A dot in the directory: the number is inserted there, and the file is not in the given directory. *)
Theorem C98_directory_refuted : plotName "./out/grid.raw" 0 = "_0./out/grid.raw"%string /\ plotName "../grid.raw" 1 = "_1../grid.raw"%string.
Proof. split; reflexivity. Qed.

(** ** C99 *)
(** Two-sided boundary in all dimensions: the coordinates of the VTK file are those of the grid. *)
Lemma nth_pad : forall (A : Type) (l : list A) x d def, (d < length l)%nat -> nth d (padTo3 x l) def = nth d l def.
Proof. intros. unfold padTo3. now rewrite app_nth1. Qed.
Lemma spacing_two_sided : forall l, 0 <= l <= 28 -> (1 / zq (2 ^ l + 1 - 1))%Qc = Q2Qc (nth (Z.to_nat l) oneOverPowOfTwoTable 0%Q).
Proof.
  intros l Hl. replace (2 ^ l + 1 - 1) with (2 ^ l) by lia. pose proof (one_over l Hl) as E. set (q := Q2Qc _) in *.
  assert (NZ : zq (2 ^ l) <> 0%Qc). { intros N. rewrite N in E. rewrite Qcmult_0_r in E. discriminate. }
  unfold Qcdiv. rewrite Qcmult_1_l. rewrite <- (Qcmult_1_l (/ zq (2 ^ l))), <- E. rewrite <- Qcmult_assoc, Qcmult_inv_r, Qcmult_1_r by auto. reflexivity.
Qed.
Theorem C99_vtk_coordinates_partial : forall levels v d, (d < length levels)%nat -> 1 <= nth d levels 0 <= 28 ->
  vtkCoord (globalSizes levels (repeat 2 (length levels))) v d = (zq (nth d v 0%Z) * Q2Qc (nth (Z.to_nat (nth d levels 0%Z)) oneOverPowOfTwoTable 0%Q))%Qc.
Proof.
  intros levels v d Hd HL. unfold vtkCoord, vtkSpacing. f_equal.
  assert (LG : forall ls, length (globalSizes ls (repeat 2 (length ls))) = length ls). { induction ls; cbn; auto. }
  rewrite nth_pad by (rewrite map_length, LG; auto).
  assert (NG : forall ls k, (k < length ls)%nat -> 1 <= nth k ls 0 -> nth k (globalSizes ls (repeat 2 (length ls))) 0 = 2 ^ nth k ls 0 + 1).
  { clear. induction ls as [|a ls IH]; intros k Hk HK; cbn [length] in *; [lia|]. destruct k as [|k]; cbn in HK |- *.
    - unfold numDofNodal1. destruct (Z.gtb_spec a 0); [|lia]. cbn. lia.
    - apply IH; auto. lia. }
  rewrite (nth_indep _ 0%Qc ((fun n => (1 / zq (n - 1))%Qc) 0)) by (rewrite map_length, LG; auto). rewrite (map_nth (fun n => (1 / zq (n - 1))%Qc)).
  rewrite NG by (auto; lia). apply spacing_two_sided. lia.
Qed.

(** One-sided boundary: the spacing is 1/(2^l - 1) instead of 2^-l; without boundary points the first point is not at 0 either. *)
Theorem C99_vtk_coordinates_refuted :
  (let sizes := globalSizes [2] [1] in inBox sizes [2] /\ vtkCoord sizes [2] 0 = Q2Qc (2 # 3) /\ Q2Qc (2 # 3) <> (zq 2 * Q2Qc (nth 2 oneOverPowOfTwoTable 0%Q))%Qc) /\
  (let sizes := globalSizes [2] [0] in inBox sizes [0] /\ vtkCoord sizes [0] 0 = zq 0 /\ zq 0 <> (zq (0 + 1) * Q2Qc (nth 2 oneOverPowOfTwoTable 0%Q))%Qc).
Proof.
  split; cbv zeta.
  - split; [|split].
    + change (globalSizes [2] [1]) with [4]. constructor; [lia|constructor].
    + vm_compute. reflexivity.
    + intros E. apply (f_equal this) in E. vm_compute in E. discriminate.
  - split; [|split].
    + change (globalSizes [2] [0]) with [3]. constructor; [lia|constructor].
    + apply Qc_is_canon. vm_compute. reflexivity.
    + intros E. apply (f_equal this) in E. vm_compute in E. discriminate.
Qed.

(** The pieces of the image: the extent of a process is its own box, and the values of the piece are those of the points of that extent in the
    order of VTK. *)
Lemma zrange_shift : forall (B : Type) (f : Z -> B) a n, map f (zrange a (a + n)) = map (fun j => f (a + j)) (zrange 0 n).
Proof.
  intros B f a n. unfold zrange. replace (a + n - a) with (n - 0) by lia. generalize (Z.to_nat (n - 0)). intros m.
  replace a with (a + 0) at 1 by lia. generalize 0. induction m as [|m IH]; intros z; cbn [zseq map]; auto. f_equal. rewrite <- IH. f_equal. f_equal. lia.
Qed.
Lemma zrange_flat : forall (B : Type) (f : Z -> list B) a n, flat_map f (zrange a (a + n)) = flat_map (fun j => f (a + j)) (zrange 0 n).
Proof. intros. rewrite !flat_map_concat_map. f_equal. apply zrange_shift. Qed.
Lemma flat_map_ext_in' : forall (A B : Type) (f g : A -> list B) l, (forall a, In a l -> f a = g a) -> flat_map f l = flat_map g l.
Proof. intros A B f g l H. induction l; cbn; auto. rewrite H by now left. f_equal. apply IHl. intros; apply H; now right. Qed.

Lemma extent_box : forall procs sizes decs r, validDec procs sizes decs -> sizes <> [] -> 0 <= r < zprod procs ->
  localExtent (localPart procs sizes decs r) = padTo3 (0, 0) (map2 (fun a b => (a, b - 1)) (lowerBounds procs decs r) (upperBounds procs sizes decs r)).
Proof.
  intros procs sizes decs r V HN Hr. pose proof (part_fits procs sizes decs r V HN Hr) as FT. cbv zeta in FT. pose proof FT as (SN & SP & SL & LL & SF).
  pose proof (localPart_wf procs sizes decs r V Hr) as HW. pose proof HW as (W1 & W2 & W3 & W4). cbn [localPart lgLower lgUpper lgGlobal] in *.
  unfold localExtent, numLocal, lgLocalSizes. cbn [localPart lgLower lgUpper lgGlobal]. set (lo := lowerBounds procs decs r) in *. set (up := upperBounds procs sizes decs r) in *.
  set (sub := vsub up lo) in *. rewrite tensorSize_prod by auto.
  assert (PZ : 0 < zprod sub). { clear - SP. induction SP; cbn; [lia|]. unfold zprod in *; cbn [fold_right] in *; nia. }
  assert (SB : forall i, (i < length lo)%nat -> nth i sub 0 = nth i up 0 - nth i lo 0) by (intros i Hi; unfold sub; apply SubspaceProofs.vsub_nth; lia).
  assert (FIRST : getVectorIndex sub 0 = repeat 0 (length sub)).
  { rewrite getVectorIndex_unlin by (auto; lia). symmetry. rewrite <- (unlin_lin sub (repeat 0 (length sub))).
    - f_equal. assert (L0 : forall l, lin l (repeat 0 (length l)) = 0) by (induction l as [|a l IH]; cbn; [reflexivity|rewrite IH; lia]). now rewrite L0.
    - apply inBox_nth. rewrite repeat_length. split; auto. intros i Hi. rewrite nth_repeat. pose proof SP as SP'. unfold posExt in SP'. rewrite Forall_forall in SP'.
      specialize (SP' (nth i sub 0) (nth_In sub 0 Hi)). lia. }
  assert (LAST : getVectorIndex sub (zprod sub - 1) = map (fun n => n - 1) sub).
  { rewrite getVectorIndex_unlin by (auto; lia). rewrite <- (unlin_lin sub (map (fun n => n - 1) sub)).
    - f_equal. clear - SP. induction SP as [|n l Hn _ IH]; cbn; auto. unfold zprod in *. cbn [fold_right] in *. nia.
    - apply inBox_nth. rewrite map_length. split; auto. intros i Hi. pose proof SP as SP'. unfold posExt in SP'. rewrite Forall_forall in SP'.
      specialize (SP' (nth i sub 0) (nth_In sub 0 Hi)). rewrite (nth_indep _ 0 ((fun n => n - 1) 0)) by (rewrite map_length; lia). rewrite (map_nth (fun n => n - 1)). lia. }
  rewrite FIRST, LAST.
  assert (P1 : vadd lo (repeat 0 (length sub)) = lo).
  { rewrite SL, <- LL. clear. induction lo; cbn; auto. f_equal; [lia|auto]. }
  assert (P2 : vadd lo (map (fun n => n - 1) sub) = map (fun b => b - 1) up).
  { apply (nth_ext _ _ 0 0). { rewrite vadd_length by (rewrite map_length; lia). rewrite map_length. lia. }
    intros i Hi. rewrite vadd_length in Hi by (rewrite map_length; lia). rewrite vadd_nth by (rewrite ?map_length; lia).
    rewrite (nth_indep (map (fun n => n - 1) sub) 0 ((fun n => n - 1) 0)), (nth_indep (map (fun n => n - 1) up) 0 ((fun n => n - 1) 0)) by (rewrite map_length; lia).
    rewrite !(map_nth (fun n => n - 1)). rewrite SB by lia. lia. }
  assert (IB : forall w, inBox sub w -> getVectorIndex sizes (sequentialIndex sizes (vadd lo w)) = vadd lo w).
  { intros w Hw. destruct (fits_in _ _ _ _ FT Hw) as [H1 _]. rewrite sequentialIndex_lin, getVectorIndex_unlin, unlin_lin; auto.
    - now apply inBox_pos in H1.
    - now apply lin_range. }
  assert (W_0 : inBox sub (repeat 0 (length sub))) by (rewrite <- FIRST, getVectorIndex_unlin by (auto; lia); now apply unlin_inBox).
  assert (W_1 : inBox sub (map (fun n => n - 1) sub)) by (rewrite <- LAST, getVectorIndex_unlin by (auto; lia); now apply unlin_inBox).
  rewrite !IB, P1, P2 by auto. f_equal. clear. generalize up. induction lo as [|a l IH]; intros [|b u]; cbn; auto. f_equal. apply IH.
Qed.

Theorem C99_pieces : forall procs sizes decs data F r, validDec procs sizes decs -> sizes <> [] -> (length sizes <= 3)%nat ->
  storesGrid procs sizes decs data F -> 0 <= r < zprod procs ->
  let g := localPart procs sizes decs r in
  localExtent g = padTo3 (0, 0) (map2 (fun a b => (a, b - 1)) (lowerBounds procs decs r) (upperBounds procs sizes decs r)) /\
  pieceValues (lgLocalSizes g) (data r) = map (fun p => F (firstn (length sizes) p)) (extentPoints (localExtent g)).
Proof.
  intros procs sizes decs data F r V HN HL HS Hr g. pose proof (extent_box procs sizes decs r V HN Hr) as EB. split; auto. unfold g. rewrite EB. clear EB.
  pose proof (part_fits procs sizes decs r V HN Hr) as FT. cbv zeta in FT. pose proof FT as (SN & SP & SL & LL & SF).
  pose proof (localPart_wf procs sizes decs r V Hr) as HW. pose proof HW as (W1 & W2 & W3 & W4). cbn [localPart lgLower lgUpper lgGlobal] in *.
  unfold lgLocalSizes. cbn [localPart lgLower lgUpper]. specialize (HS r).
  set (lo := lowerBounds procs decs r) in *. set (up := upperBounds procs sizes decs r) in *. clearbody lo up.
  assert (VAL : forall w, inBox (vsub up lo) w -> data r (sequentialIndex (vsub up lo) w) = F (vadd lo w)).
  { intros w Hw. destruct (fits_in _ _ _ _ FT Hw) as [IB E]. rewrite <- (HS (vadd lo w) Hr).
    - now rewrite E.
    - pose proof (inBox_length _ _ Hw) as LW. apply boxPoints_In; [lia|]. split; [rewrite vadd_length; lia|]. intros i Hi. apply inBox_nth in Hw as [_ Hw]. specialize (Hw i ltac:(lia)).
      rewrite SubspaceProofs.vsub_nth in Hw by lia. rewrite vadd_nth by lia. lia. }
  clear HS. destruct sizes as [|s0 [|s1 [|s2 [|s3 sizes]]]]; cbn [length] in *; try lia; try congruence.
  - destruct lo as [|l0 [|]]; cbn in LL; try lia. destruct up as [|u0 [|]]; cbn in W2; try lia.
    cbn -[zrange Z.add Z.sub Z.mul]. change (zrange 0 (0 + 1)) with [0]. cbn -[zrange Z.add Z.sub Z.mul].
    rewrite !app_nil_r, map_map. replace (u0 - 1 + 1) with (l0 + (u0 - l0)) by lia. rewrite zrange_shift. apply map_ext_in. intros j Hj. apply zrange_In in Hj. cbn.
    specialize (VAL [j] ltac:(repeat constructor; lia)). rewrite sequentialIndex_lin in VAL. cbn in VAL. rewrite <- VAL. f_equal. lia.
  - destruct lo as [|l0 [|l1 [|]]]; cbn in LL; try lia. destruct up as [|u0 [|u1 [|]]]; cbn in W2; try lia.
    cbn -[zrange Z.add Z.sub Z.mul]. change (zrange 0 (0 + 1)) with [0]. cbn -[zrange Z.add Z.sub Z.mul]. rewrite app_nil_r.
    replace (u0 - 1 + 1) with (l0 + (u0 - l0)) by lia. replace (u1 - 1 + 1) with (l1 + (u1 - l1)) by lia. rewrite zrange_flat, flat_map_concat_map, (flat_map_concat_map _ (zrange 0 (u1 - l1))), concat_map, !map_map. f_equal.
    apply map_ext_in. intros i Hi. apply zrange_In in Hi. rewrite map_map, zrange_shift. apply map_ext_in. intros j Hj. apply zrange_In in Hj. cbn.
    specialize (VAL [j; i] ltac:(repeat constructor; lia)). rewrite sequentialIndex_lin in VAL. cbn in VAL. rewrite <- VAL. f_equal. lia.
  - destruct lo as [|l0 [|l1 [|l2 [|]]]]; cbn in LL; try lia. destruct up as [|u0 [|u1 [|u2 [|]]]]; cbn in W2; try lia.
    cbn -[zrange Z.add Z.sub Z.mul].
    replace (u0 - 1 + 1) with (l0 + (u0 - l0)) by lia. replace (u1 - 1 + 1) with (l1 + (u1 - l1)) by lia. replace (u2 - 1 + 1) with (l2 + (u2 - l2)) by lia.
    rewrite zrange_flat, !(flat_map_concat_map _ (zrange 0 (u2 - l2))), concat_map, !map_map. f_equal. apply map_ext_in. intros k Hk. apply zrange_In in Hk.
    rewrite zrange_flat, !(flat_map_concat_map _ (zrange 0 (u1 - l1))), concat_map, !map_map. f_equal.
    apply map_ext_in. intros i Hi. apply zrange_In in Hi. rewrite map_map, zrange_shift. apply map_ext_in. intros j Hj. apply zrange_In in Hj. cbn.
    specialize (VAL [j; i; k] ltac:(repeat constructor; lia)). rewrite sequentialIndex_lin in VAL. cbn in VAL. rewrite <- VAL. f_equal. lia.
Qed.

(** The VTK file: the bytes of the header, then the value of every point at its linear index, big endian if the MPI library does it. *)
Theorem C99_vtk_file : forall esz flip hdr procs sizes decs order data F old, 0 < esz -> validDec procs sizes decs -> sizes <> [] -> hdr <> [] ->
  smallParts procs sizes decs -> storesGrid procs sizes decs data F -> Permutation order (zrange 0 (zprod procs)) ->
  let f := writePlotVTK esz flip hdr procs sizes decs order data old in
  let h := Z.of_nat (length hdr) in
  (forall p, 0 <= p < h -> fByte f p = Byte (nth (Z.to_nat p) hdr 0)) /\
  (forall x k, inBox sizes x -> 0 <= k < esz -> fByte f (h + esz * sequentialIndex sizes x + k) = ByteOf (F x) (if flip then esz - 1 - k else k)) /\
  fLen f = Z.max (fLen old) (h + esz * zprod sizes).
Proof.
  intros esz flip hdr procs sizes decs order data F old HE V HN HH SM HS HP f h. unfold f, writePlotVTK. cbn [fByte fLen]. fold h.
  set (f1 := writeBytes old 0 h _). assert (0 < h) by (unfold h; destruct hdr; [congruence|cbn; lia]).
  destruct (parts_spec procs sizes decs data F V HN HS SM order HP esz h f1 HE) as (A & B & C). split; [|split].
  - intros p Hp. rewrite B by lia. unfold f1. rewrite byte_there by lia. now rewrite Z.sub_0_r.
  - intros x k Hx Hk. rewrite A by auto. now destruct flip.
  - rewrite C. unfold f1. rewrite len_write by lia. assert (PZ : 0 <= esz * zprod sizes); [|lia]. apply Z.mul_nonneg_nonneg; [lia|].
    destruct (Z_lt_ge_dec (zprod sizes) 0) as [L|]; [|lia]. exfalso. revert L. clear - V HN. intros L.
    pose proof (validDec_pos _ _ _ V) as P. assert (Hr : 0 <= 0 < zprod procs). { split; [lia|]. clear - P. induction P; cbn; [lia|]. unfold zprod in *; cbn [fold_right] in *; nia. }
    pose proof (localPart_wf procs sizes decs 0 V Hr) as (W1 & W2 & W3 & W4). cbn [localPart lgLower lgUpper lgGlobal] in *.
    assert (PS : Forall (fun n => 0 <= n) sizes).
    { apply Forall_forall. intros n Hn. apply (In_nth _ _ 0) in Hn as (i & Hi & <-). destruct V as (V1 & V2 & V3). destruct (V3 i ltac:(lia)) as (_ & _ & _ & V4).
      specialize (V4 0%nat). destruct (nth i decs []) eqn:EN; [|cbn in V4]. 2:{ destruct (V3 i ltac:(lia)) as (_ & V5 & _). rewrite EN in V5. cbn in V5. specialize (V4 ltac:(lia)). lia. }
      destruct (V3 i ltac:(lia)) as (_ & V5 & _). rewrite EN in V5. cbn in V5. lia. }
    clear - PS L. assert (0 <= zprod sizes); [|lia]. clear L. induction PS; cbn; [lia|]. unfold zprod in *; cbn [fold_right] in *; nia.
Qed.

(** ** What the readers make of the files *)
(** A file that was longer keeps its old end, and plot_raw_slice refuses it. *)
Theorem C97_rewritten_file_refuted : forall procs sizes decs order data F old v, validDec procs sizes decs -> sizes <> [] ->
  smallParts procs sizes decs -> storesGrid procs sizes decs data F -> Permutation order (zrange 0 (zprod procs)) -> 8 * zprod sizes < fLen old ->
  let f := writePlotRaw 8 procs sizes decs order data old in
  fLen f = fLen old /\ fByte f (fLen old - 1) = fByte old (fLen old - 1) /\ toolRaw f sizes v = None.
Proof.
  intros procs sizes decs order data F old v V HN SM HS HP HL f. destruct (C97_raw_file 8 procs sizes decs order data F old ltac:(lia) V HN SM HS HP) as (_ & L & B). fold f in L, B.
  split; [lia|]. split; [apply B; lia|]. unfold toolRaw. destruct (Z.eqb_spec (fLen f) (8 * zprod sizes)); [lia|]. reflexivity.
Qed.

Lemma exSmall : smallParts [2; 1] exSizes [[0; 3]; [0]].
Proof. intros r Hr. change (zprod [2; 1]) with 2 in Hr. assert (E : r = 0 \/ r = 1) by lia. destruct E as [-> | ->]; vm_compute; reflexivity. Qed.

(** plot_raw_slice reads the last index as the fastest one: it finds the value of another point. *)
Theorem C97_tool_order_refuted : exists procs sizes decs order data F v w, validDec procs sizes decs /\ sizes <> [] /\ smallParts procs sizes decs /\
  storesGrid procs sizes decs data F /\ Permutation order (zrange 0 (zprod procs)) /\ inBox sizes v /\
  toolRaw (writePlotRaw 8 procs sizes decs order data noFile) sizes v = Some w /\ w <> F v.
Proof.
  exists [2; 1], exSizes, [[0; 3]; [0]], [1; 0], exIData, exF, [1; 0], (zq 3). split; [apply exI_good|]. split; [discriminate|]. split; [apply exSmall|]. split; [apply exG_stores|].
  split; [apply perm_swap|]. split; [change exSizes with [4; 3]; repeat (constructor; [lia|]); constructor|]. split.
  - replace (zq 3) with (exF [3; 0]) by (apply Qc_is_canon; reflexivity).
    destruct (C97_raw_file 8 [2; 1] exSizes [[0; 3]; [0]] [1; 0] exIData exF noFile ltac:(lia) (proj1 exI_good) ltac:(discriminate) exSmall exG_stores ltac:(apply perm_swap)) as (A & L & _).
    unfold toolRaw. rewrite L. change (Z.max (fLen noFile) (8 * zprod exSizes) =? 8 * zprod exSizes) with true. cbv iota.
    change (sequentialIndex (rev exSizes) (rev [1; 0])) with (sequentialIndex exSizes [3; 0]). apply A. change exSizes with [4; 3]; repeat (constructor; [lia|]); constructor.
  - intros E. apply (f_equal this) in E. vm_compute in E. discriminate.
Qed.

(** With less than six dimensions the file depends on memory behind the vector of the sizes. *)
Theorem C97_memory_beyond_refuted : exists procs sizes decs order data beyond beyond' p, validDec procs sizes decs /\ smallParts procs sizes decs /\
  0 <= p < fLen (writePlot 8 procs sizes decs order beyond data noFile) /\
  fByte (writePlot 8 procs sizes decs order beyond data noFile) p <> fByte (writePlot 8 procs sizes decs order beyond' data noFile) p.
Proof.
  exists [1], [2], [[0]], [0], (fun _ _ => 0%Qc), (fun _ => 0), (fun _ => -1), 24. split.
  - split; [reflexivity|]. split; [reflexivity|]. intros i Hi. cbn in Hi. replace i with 0%nat by lia. split; [reflexivity|]. split; [reflexivity|]. split; [intros [|a] [|b] H; cbn in *; lia|intros [|a] H; cbn in *; lia].
  - split; [intros r Hr; change (zprod [1]) with 1 in Hr; replace r with 0 by lia; vm_compute; reflexivity|].
    split; [vm_compute; split; congruence|]. vm_compute. discriminate.
Qed.

(** ** Examples: the 4 x 3 grid of C32_ex on two processes *)
Definition exOld : pfile := {| fLen := 100; fByte := fun p => Byte (p mod 256) |}.
Example C97_ex : validDec [2; 1] exSizes [[0; 3]; [0]] /\ exSizes <> [] /\ smallParts [2; 1] exSizes [[0; 3]; [0]] /\ storesGrid [2; 1] exSizes [[0; 3]; [0]] exIData exF /\
  Permutation [1; 0] (zrange 0 (zprod [2; 1])) /\
  map (fun e => option_map this (readValue 8 (writePlotRaw 8 [2; 1] exSizes [[0; 3]; [0]] [1; 0] exIData noFile) (8 * e))) [0; 1; 4; 11; 12] =
  [Some 0%Q; Some 1%Q; Some 10%Q; Some 23%Q; None] /\
  fLen (writePlotRaw 8 [2; 1] exSizes [[0; 3]; [0]] [1; 0] exIData noFile) = 96 /\
  fLen (writePlotRaw 8 [2; 1] exSizes [[0; 3]; [0]] [1; 0] exIData exOld) = 100.
Proof.
  split; [apply exI_good|]. split; [discriminate|]. split; [apply exSmall|]. split; [apply exG_stores|]. split; [apply perm_swap|].
  split; [vm_compute; reflexivity|]. split; vm_compute; reflexivity.
Qed.
(** With the header: dimension 2, extents 4 and 3, values from byte 12; errorCalc finds dimension 1026. *)
Example C97_header_ex : let f := writePlot 8 [2; 1] exSizes [[0; 3]; [0]] [1; 0] (fun _ => 77) exIData noFile in
  (length exSizes < 256)%nat /\ fByte f 0 = Byte 2 /\ readInt f 1 = Some 4 /\ readInt f 5 = Some 3 /\ option_map this (readValue 8 f (12 + 8 * 4)) = Some 10%Q /\
  0 < nth 0 exSizes 0 < 2 ^ 23 /\ readInt f 0 = Some (2 + 256 * 4).
Proof. cbv zeta. split; [cbn; lia|]. repeat (split; [vm_compute; reflexivity|]). split; [split; vm_compute; reflexivity|vm_compute; reflexivity]. Qed.
Example C98_ex : containsChar "."%char "run.raw" /\ endsWith "run.raw" ".vtk" = false /\ plotName "run.raw" 0 = "run_0.raw"%string /\ plotName "run.raw" 12 = "run_12.raw"%string.
Proof. split; [exists "run"%string, "raw"%string; reflexivity|]. repeat split; reflexivity. Qed.
(** Two grids into one VTK file: only the second is there. *)
Example C98_vtk_ex : forall (write : nat -> pfile -> pfile) fs, plotGrids "run.vtk" write 2 fs "run.vtk" = write 1%nat (write 0%nat (fs "run.vtk"%string)).
Proof. reflexivity. Qed.
Example C99_ex : inBox (globalSizes [2; 1] [2; 2]) [3; 1] /\ map (fun d => this (vtkCoord (globalSizes [2; 1] [2; 2]) [3; 1] d)) [0%nat; 1%nat] = [3 # 4; 1 # 2]%Q /\
  localExtent (localPart [2; 1] exSizes [[0; 3]; [0]] 1) = [(3, 3); (0, 2); (0, 0)] /\
  map this (pieceValues (lgLocalSizes (localPart [2; 1] exSizes [[0; 3]; [0]] 1)) (exIData 1)) = [3; 13; 23]%Q /\
  (let f := writePlotVTK 8 true [35; 32; 118] [2; 1] exSizes [[0; 3]; [0]] [0; 1] exIData noFile in
   fByte f 2 = Byte 118 /\ match fByte f (3 + 8 * 4) with ByteOf v k => (this v, k) = (10%Q, 7) | Byte _ => False end /\ fLen f = 3 + 96).
Proof.
  split; [change (globalSizes [2; 1] [2; 2]) with [5; 3]; repeat (constructor; [lia|]); constructor|].
  split; [vm_compute; reflexivity|]. split; [vm_compute; reflexivity|]. split; [vm_compute; reflexivity|].
  split; [vm_compute; reflexivity|]. split; vm_compute; reflexivity.
Qed.

Print Assumptions C97_raw_file.
Print Assumptions C97_raw_length_partial.
Print Assumptions C97_file_with_header.
Print Assumptions C97_header_of_tool_refuted.
Print Assumptions C97_rewritten_file_refuted.
Print Assumptions C97_tool_order_refuted.
Print Assumptions C97_memory_beyond_refuted.
Print Assumptions C98_distinct_files_partial.
Print Assumptions C98_every_grid_plotted_partial.
Print Assumptions C98_same_file_refuted.
Print Assumptions C98_directory_refuted.
Print Assumptions C99_vtk_coordinates_partial.
Print Assumptions C99_vtk_coordinates_refuted.
Print Assumptions C99_pieces.
Print Assumptions C99_vtk_file.
