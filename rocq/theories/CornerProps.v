(** C109: corners and boundary of a distributed full grid. *)
From Verif Require Import Base TensorModel TensorProofs TensorProps PartitionModel PartitionProofs PartitionProps DecompModel SubspaceModel SubspaceProofs SubspaceProps
  Hier1dModel HierMassProofs DofModel DofProofs DofProps SparseGridModel SparseGridProps QcTools KahanModel InterpModel InterpProofs LocalPartProofs InterpProps CornerModel.
From Coq Require Import QArith Qcanon Permutation.
Open Scope Z_scope.
Ltac Zify.zify_post_hook ::= idtac.

Fixpoint cornersOf (sizes : list Z) : list (list Z) :=
  match sizes with [] => [[]] | n :: r => map (cons 0) (cornersOf r) ++ map (cons (n - 1)) (cornersOf r) end.

Lemma flat_map_flat_map : forall {A B C} (f : A -> list B) (g : B -> list C) l, flat_map g (flat_map f l) = flat_map (fun x => flat_map g (f x)) l.
Proof. intros A B C f g. induction l as [|x l IH]; cbn [flat_map]; auto. rewrite flat_map_app, IH. reflexivity. Qed.

Lemma cornersRecursive_eq : forall sizes soFar, cornersRecursive soFar sizes = flat_map (fun v => map (app v) (cornersOf sizes)) soFar.
Proof.
  induction sizes as [|n r IH]; intros soFar; cbn [cornersRecursive cornersOf map].
  - induction soFar as [|v l IHl]; cbn [flat_map]; auto. rewrite app_nil_r. cbn [app]. now rewrite <- IHl.
  - rewrite IH, flat_map_flat_map. apply flat_map_ext. intros v. cbn [flat_map]. rewrite app_nil_r, map_app, !map_map.
    f_equal; apply map_ext; intros w; now rewrite <- app_assoc.
Qed.
Lemma cornerIndices_eq : forall sizes, cornerIndices sizes = cornersOf sizes.
Proof.
  intros sizes. unfold cornerIndices. rewrite cornersRecursive_eq. cbn [flat_map]. rewrite app_nil_r.
  rewrite <- (map_id (cornersOf sizes)) at 2. apply map_ext. reflexivity.
Qed.
Lemma cornersOf_length : forall sizes, length (cornersOf sizes) = (2 ^ length sizes)%nat.
Proof. induction sizes as [|n r IH]; cbn [cornersOf length]; auto. rewrite app_length, !map_length, IH, Nat.pow_succ_r'. lia. Qed.
Lemma cornersOf_In : forall sizes v, In v (cornersOf sizes) <-> Forall2 (fun n x => x = 0 \/ x = n - 1) sizes v.
Proof.
  induction sizes as [|n r IH]; intros v; cbn [cornersOf].
  - split; [intros [<-|[]]; constructor|]. intros H. inv H. now left.
  - rewrite in_app_iff, !in_map_iff. split.
    + intros [(w & <- & Hw)|(w & <- & Hw)]; constructor; auto; now apply IH.
    + intros H. inv H. destruct H2 as [->| ->]; [left|right]; eexists; (split; [reflexivity|]); now apply IH.
Qed.

Lemma corner_bits : forall sizes k j, (k < 2 ^ length sizes)%nat -> (j < length sizes)%nat ->
  nth j (nth k (cornersOf sizes) []) 0 = if Z.testbit (Z.of_nat k) (Z.of_nat (length sizes - 1 - j)) then nth j sizes 0 - 1 else 0.
Proof.
  induction sizes as [|n r IH]; intros k j Hk Hj; [cbn in Hj; lia|]. cbn [cornersOf length] in *. rewrite Nat.pow_succ_r' in Hk.
  assert (P : Z.of_nat (2 ^ length r) = 2 ^ Z.of_nat (length r)) by now rewrite Nat2Z.inj_pow.
  assert (PP : 0 < 2 ^ Z.of_nat (length r)) by (apply Z.pow_pos_nonneg; lia).
  destruct (Nat.lt_ge_cases k (2 ^ length r)) as [H|H].
  - rewrite app_nth1 by (rewrite map_length, cornersOf_length; lia).
    rewrite (nth_indep _ [] (cons 0 [])) by (rewrite map_length, cornersOf_length; lia). rewrite map_nth.
    destruct j as [|j]; cbn [nth].
    + replace (S (length r) - 1 - 0)%nat with (length r) by lia.
      assert (T : Z.testbit (Z.of_nat k) (Z.of_nat (length r)) = false).
      { rewrite Z.testbit_false by lia. rewrite Z.div_small by lia. reflexivity. }
      now rewrite T.
    + rewrite IH by lia. replace (S (length r) - 1 - S j)%nat with (length r - 1 - j)%nat by lia. reflexivity.
  - rewrite app_nth2 by (rewrite map_length, cornersOf_length; lia). rewrite map_length, cornersOf_length.
    set (k' := (k - 2 ^ length r)%nat). assert (Hk' : (k' < 2 ^ length r)%nat) by (unfold k'; lia).
    rewrite (nth_indep _ [] (cons (n - 1) [])) by (rewrite map_length, cornersOf_length; lia). rewrite map_nth.
    assert (EK : Z.of_nat k = Z.of_nat k' + 1 * 2 ^ Z.of_nat (length r)) by (rewrite <- P; unfold k'; lia).
    destruct j as [|j]; cbn [nth].
    + replace (S (length r) - 1 - 0)%nat with (length r) by lia. rewrite EK.

      assert (T : Z.testbit (Z.of_nat k' + 1 * 2 ^ Z.of_nat (length r)) (Z.of_nat (length r)) = true).
      { apply Z.testbit_true; [lia|]. rewrite Z.div_add by lia. rewrite Z.div_small by lia. reflexivity. }
      now rewrite T.
    + rewrite IH by lia. replace (S (length r) - 1 - S j)%nat with (length r - 1 - j)%nat by lia. rewrite EK.
      assert (T : Z.testbit (Z.of_nat k' + 1 * 2 ^ Z.of_nat (length r)) (Z.of_nat (length r - 1 - j)) = Z.testbit (Z.of_nat k') (Z.of_nat (length r - 1 - j))).
      { rewrite <- (Z.mod_pow2_bits_low (Z.of_nat k' + 1 * 2 ^ Z.of_nat (length r)) (Z.of_nat (length r))) by lia.
        rewrite Z.mod_add by lia. rewrite Z.mod_small by lia. reflexivity. }
      now rewrite T.
Qed.

(** The corners and their order: corner number [k] of 2^d takes the upper end of dimension [j] exactly if bit [d - 1 - j] of [k]
    is set; these are all multi-indices with only first and last indices. *)
Theorem C109_corner_order : forall sizes k j, (k < 2 ^ length sizes)%nat -> (j < length sizes)%nat ->
  length (cornerIndices sizes) = (2 ^ length sizes)%nat /\
  length (nth k (cornerIndices sizes) []) = length sizes /\
  nth j (nth k (cornerIndices sizes) []) 0 = if Z.testbit (Z.of_nat k) (Z.of_nat (length sizes - 1 - j)) then nth j sizes 0 - 1 else 0.
Proof.
  intros sizes k j Hk Hj. rewrite cornerIndices_eq. split; [apply cornersOf_length|]. split; [|now apply corner_bits].
  assert (H : In (nth k (cornersOf sizes) []) (cornersOf sizes)) by (apply nth_In; rewrite cornersOf_length; auto).
  apply cornersOf_In in H. now apply Forall2_length in H.
Qed.
Theorem C109_corners_complete : forall sizes v, In v (cornerIndices sizes) <-> Forall2 (fun n x => x = 0 \/ x = n - 1) sizes v.
Proof. intros sizes v. rewrite cornerIndices_eq. apply cornersOf_In. Qed.
Theorem C109_corners_distinct : forall sizes, Forall (fun n => 2 <= n) sizes -> NoDup (cornerIndices sizes).
Proof.
  intros sizes H. rewrite cornerIndices_eq. induction H as [|n r Hn H IH]; cbn [cornersOf].
  - repeat constructor. intros [].
  -
    assert (J : forall x, NoDup (map (cons x) (cornersOf r))) by (intros x; apply FinFun.Injective_map_NoDup; auto; intros a b E; now injection E).
    revert J. generalize (cornersOf r). intros l J.
    assert (D : forall v, In v (map (cons 0) l) -> ~ In v (map (cons (n - 1)) l)).
    { intros v A B. apply in_map_iff in A. apply in_map_iff in B. destruct A as (a & <- & _). destruct B as (b & E & _). injection E. lia. }
    specialize (J 0) as J0. specialize (J (n - 1)). revert J0 D J. generalize (map (cons 0) l) (map (cons (n - 1)) l). clear.
    induction l as [|v l IH]; intros m A D B; cbn [app]; auto. inv A. constructor.
    + rewrite in_app_iff. intros [X|X]; [contradiction|]. apply (D v); [now left|auto].
    + apply IH; auto. intros w Hw. apply D. now right.
Qed.

Lemma qs_single : forall (f : Z -> Qc) l r, NoDup l -> In r l -> (forall x, In x l -> x <> r -> f x = 0%Qc) -> qsum (map f l) = f r.
Proof.
  intros f. induction l as [|x l IH]; intros r ND Hr H; [destruct Hr|]. inv ND. cbn [map]. change (qsum (?a :: ?b)) with (a + qsum b)%Qc.
  destruct Hr as [->|Hr].
  - rewrite qs_zero; [ring|]. intros y Hy. apply H; [now right|]. intros ->. contradiction.
  - rewrite (IH r) by (auto; intros y Hy; apply H; now right). rewrite (H x); [ring|now left|]. intros ->. contradiction.
Qed.

(** Every process obtains the values of the grid at the corners, in that order, whatever the decomposition. *)
Theorem C109_values : forall procs sizes decs data F, validDec procs sizes decs -> sizes <> [] -> storesGrid procs sizes decs data F ->
  cornersValues procs sizes decs data = map F (cornerIndices sizes).
Proof.
  intros procs sizes decs data F V HN HS. unfold cornersValues. apply map_ext_in. intros c Hc. apply C109_corners_complete in Hc.
  pose proof V as (V1 & V2 & V3).
  assert (PS : forall i, (i < length sizes)%nat -> 0 < nth i sizes 0).
  { intros i Hi. destruct (V3 i ltac:(lia)) as [E (D1 & D2 & D3)]. pose proof (validDec_pos _ _ _ V) as P.
    unfold posExt in P. rewrite Forall_forall in P. specialize (P (nth i procs 0) ltac:(apply nth_In; lia)).
    specialize (D3 0%nat ltac:(lia)). rewrite (nth_indep _ 0 (-1)) in D3 by lia. lia. }
  assert (HB : Forall2 (fun e x => 0 <= x < e) sizes c).
  { apply (Forall2_nth_iff _ _ _ 0 0) in Hc. destruct Hc as [L Hc]. apply (Forall2_nth_iff _ _ _ 0 0). split; auto.
    intros i Hi. specialize (Hc i Hi). specialize (PS i Hi). cbv beta in Hc |- *. lia. }
  destruct (C02_unique_owner procs sizes decs c V HB) as (r & Hr & _ & L1 & L2 & U).
  assert (LC : length c = length sizes) by (apply Forall2_length in HB; lia).
  assert (HERE : forall r', 0 <= r' < zprod procs -> (isGlobalIndexHere (localPart procs sizes decs r') c = true <->
     Forall2 Z.le (lowerBounds procs decs r') c /\ Forall2 Z.lt c (upperBounds procs sizes decs r'))).
  { intros r' Hr'. pose proof (localPart_wf _ _ _ r' V Hr') as (W1 & W2 & _). cbn [localPart lgLower lgUpper lgGlobal] in W1, W2.
    unfold isGlobalIndexHere, vgeb, vltb. cbn [localPart lgLower lgUpper]. rewrite andb_true_iff.
    rewrite (vall_spec Z.leb (lowerBounds procs decs r') c) by lia. rewrite (vall_spec Z.ltb c (upperBounds procs sizes decs r')) by lia.
    assert (X : forall (R : Z -> Z -> bool) (Q : Z -> Z -> Prop) a b, (forall x y, R x y = true <-> Q x y) ->
      (Forall2 (fun x y => R x y = true) a b <-> Forall2 Q a b)).
    { intros R Q a b RQ. split; intros F2; induction F2; constructor; auto; now apply RQ. }
    rewrite (X Z.leb Z.le) by (intros; apply Z.leb_le). rewrite (X Z.ltb Z.lt) by (intros; apply Z.ltb_lt). tauto. }
  rewrite (qs_single _ _ r).
  - unfold cornerContribution, localVectorOfGlobal. rewrite (proj2 (HERE r Hr) (conj L1 L2)).
    apply (HS r c Hr). pose proof (localPart_wf _ _ _ r V Hr) as (W1 & W2 & _). cbn [localPart lgLower lgUpper lgGlobal] in W1, W2.
    apply boxPoints_In; [lia|]. apply (Forall2_nth_iff _ _ Z.le 0 0) in L1. apply (Forall2_nth_iff _ _ Z.lt 0 0) in L2.
    destruct L1 as [A1 A2]. destruct L2 as [B1 B2]. split; [lia|]. intros i Hi. specialize (A2 i Hi). specialize (B2 i ltac:(lia)). lia.
  - apply zrange_NoDup.
  - now apply zrange_In.
  - intros x Hx Nx. apply zrange_In in Hx. unfold cornerContribution, localVectorOfGlobal.
    destruct (isGlobalIndexHere (localPart procs sizes decs x) c) eqn:E; auto. exfalso. apply Nx. apply HERE in E; auto. apply U; tauto.
Qed.

(** The boundary flags of a point, given by its global or by its local linear index: dimension [d] is flagged exactly if both
    boundaries belong to the grid there and the point has the first or the last index. *)
Lemma boundaryFlags_nth : forall bs sizes v, length bs = length sizes -> length v = length sizes ->
  length (boundaryFlags bs sizes v) = length sizes /\
  forall d, (d < length sizes)%nat -> (nth d (boundaryFlags bs sizes v) false = true <->
    nth d bs 0 = 2 /\ (nth d v 0 = 0 \/ nth d v 0 = nth d sizes 0 - 1)).
Proof.
  induction bs as [|b bs IH]; intros [|n sizes] [|x v] H1 H2; cbn [length] in *; try lia.
  - split; auto. cbn. intros d Hd. lia.
  - destruct (IH sizes v ltac:(lia) ltac:(lia)) as [A B]. cbn [boundaryFlags length]. split; [lia|]. intros [|d] Hd; cbn [nth]; [|apply B; lia].
    destruct (Z.eqb_spec b 2); [|split; [discriminate|lia]]. rewrite orb_true_iff, !Z.eqb_eq. lia.
Qed.
Theorem C109_boundary : forall bs sizes v d, length bs = length sizes -> Forall2 (fun e x => 0 <= x < e) sizes v -> (d < length sizes)%nat ->
  nth d (globalLinearOnBoundary bs sizes (sequentialIndex sizes v)) false = true <->
  nth d bs 0 = 2 /\ (nth d v 0 = 0 \/ nth d v 0 = nth d sizes 0 - 1).
Proof.
  intros bs sizes v d LB HB Hd. unfold globalLinearOnBoundary.
  assert (L : length v = length sizes) by (apply Forall2_length in HB; lia).
  rewrite C01_vector_roundtrip by exact HB. now apply boundaryFlags_nth.
Qed.
Theorem C109_local_boundary : forall procs sizes bs decs r v d, validDec procs sizes decs -> sizes <> [] -> length bs = length sizes ->
  0 <= r < zprod procs -> In v (boxPoints (lowerBounds procs decs r) (upperBounds procs sizes decs r)) -> (d < length sizes)%nat ->
  let g := localPart procs sizes decs r in
  nth d (localLinearOnBoundary bs g (sequentialIndex (lgLocalSizes g) (vsub v (lgLower g)))) false = true <->
  nth d bs 0 = 2 /\ (nth d v 0 = 0 \/ nth d v 0 = nth d sizes 0 - 1).
Proof.
  intros procs sizes bs decs r v d V HN LB Hr Hv Hd g. pose proof (localPart_wf _ _ _ r V Hr) as HW. fold g in HW. pose proof HW as (W1 & W2 & _).
  change (boxPoints _ _) with (boxPoints (lgLower g) (lgUpper g)) in Hv. apply boxPoints_In in Hv as [L B]; [|lia].
  change (lgGlobal g) with sizes in W1, W2.
  assert (HH : isGlobalIndexHere g v = true).
  { unfold isGlobalIndexHere, vgeb, vltb. apply andb_true_iff. split; (apply vall_spec; [lia|]); apply (Forall2_nth_iff _ _ _ 0 0); (split; [lia|]); intros i Hi; specialize (B i ltac:(lia)); lia. }
  destruct (here_local g v HW ltac:(change (lgGlobal g) with sizes; lia) HH) as [IB E].
  unfold localLinearOnBoundary, globalLinearOnBoundary. pose proof (lin_range _ _ IB) as R. rewrite sequentialIndex_lin.
  destruct (globalOfLocalLinear_spec g (lin (lgLocalSizes g) (vsub v (lgLower g))) HW R) as [X _]. rewrite X.
  rewrite getVectorIndex_unlin, unlin_lin by (auto; now apply wfLocal_sizes_pos). rewrite E. change (lgGlobal g) with sizes.
  apply boundaryFlags_nth; lia.
Qed.

(** A 4 x 3 grid on two processes, boundary two-sided in the second dimension only. *)
Example C109_ex : goodGrid [2; 1] [2; 1] [1; 2] [[0; 3]; [0]] /\ storesGrid [2; 1] [4; 3] [[0; 3]; [0]] exIData exF /\
  cornerIndices [4; 3] = [[0; 0]; [0; 2]; [3; 0]; [3; 2]] /\
  cornersValues [2; 1] [4; 3] [[0; 3]; [0]] exIData = map zq [0; 20; 3; 23] /\
  globalLinearOnBoundary [1; 2] [4; 3] (sequentialIndex [4; 3] [0; 2]) = [false; true].
Proof.
  split; [apply exI_good|]. split; [apply storedData_stores; [apply exI_good|discriminate]|]. split; [reflexivity|].
  split; [|reflexivity]. vm_compute. repeat f_equal; apply Qc_is_canon; reflexivity.
Qed.

Print Assumptions C109_corner_order.
Print Assumptions C109_corners_complete.
Print Assumptions C109_corners_distinct.
Print Assumptions C109_values.
Print Assumptions C109_boundary.
Print Assumptions C109_local_boundary.
Print Assumptions C109_ex.
