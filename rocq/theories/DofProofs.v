(** Proofs about the counting functions. *)
From Verif Require Import Base TensorModel TensorProofs PartitionModel PartitionProofs LevelSetsModel LevelSetsProofs
  DofModel.

Lemma fold_mul_map : forall (A : Type) (f : A -> Z) l acc,
  fold_left (fun a p => a * f p) l acc = acc * zprod (map f l).
Proof.
  induction l as [|x l IH]; intros acc; cbn [fold_left map].
  - change (zprod []) with 1. ring.
  - rewrite IH. change (zprod (f x :: map f l)) with (f x * zprod (map f l)). ring.
Qed.

Lemma fold_add_map : forall (A : Type) (f : A -> Z) l acc,
  fold_left (fun a p => a + f p) l acc = acc + zsum (map f l).
Proof.
  induction l as [|x l IH]; intros acc; cbn [fold_left map].
  - rewrite zsum_nil. ring.
  - rewrite IH, zsum_cons. ring.
Qed.

Lemma combine_map2 : forall (A B C : Type) (f : A -> B -> C) a b,
  map (fun p => f (fst p) (snd p)) (combine a b) = map2 f a b.
Proof. induction a; destruct b; simpl; auto. now rewrite IHa. Qed.

Lemma zprod_cons : forall x l, zprod (x :: l) = x * zprod l.
Proof. reflexivity. Qed.

Lemma numDofNodal_map2 : forall l b, numDofNodal l b = zprod (map2 dofNodal1 l b).
Proof.
  intros. unfold numDofNodal. rewrite fold_mul_map with (f := fun p => dofNodal1 (fst p) (snd p)).
  rewrite combine_map2. ring.
Qed.

Lemma numDofHierarchical_map2 : forall l b, numDofHierarchical l b = zprod (map2 numDofHierarchical1 l b).
Proof.
  intros. unfold numDofHierarchical. rewrite fold_mul_map with (f := fun p => numDofHierarchical1 (fst p) (snd p)).
  rewrite combine_map2. ring.
Qed.

Lemma zsum_map_scale : forall (A : Type) (f : A -> Z) c l, zsum (map (fun x => c * f x) l) = c * zsum (map f l).
Proof. induction l; simpl; rewrite ?zsum_nil, ?zsum_cons; [ring|]. rewrite IHl. ring. Qed.

Lemma zsum_flat_map : forall (A B : Type) (f : B -> Z) (g : A -> list B) l,
  zsum (map f (flat_map g l)) = zsum (map (fun a => zsum (map f (g a))) l).
Proof.
  induction l; simpl; auto. rewrite map_app, zsum_app, zsum_cons, IHl. reflexivity.
Qed.

Lemma zsum_map_plus : forall (A : Type) (f g : A -> Z) l,
  zsum (map (fun x => f x + g x) l) = zsum (map f l) + zsum (map g l).
Proof. induction l; simpl; rewrite ?zsum_nil, ?zsum_cons; [ring|]. rewrite IHl. ring. Qed.

Lemma zsum_map_ext : forall (A : Type) (f g : A -> Z) l,
  (forall x, In x l -> f x = g x) -> zsum (map f l) = zsum (map g l).
Proof. intros. f_equal. now apply map_ext_in. Qed.

Lemma zsum_map_0 : forall (A : Type) (f : A -> Z) l, (forall x, In x l -> f x = 0) -> zsum (map f l) = 0.
Proof.
  induction l; intros H; simpl; rewrite ?zsum_nil, ?zsum_cons; auto.
  rewrite H by (simpl; auto). rewrite IHl; [ring|]. intros. apply H. simpl; auto.
Qed.

Lemma zsum_swap : forall (A B : Type) (f : A -> B -> Z) la lb,
  zsum (map (fun a => zsum (map (f a) lb)) la) = zsum (map (fun b => zsum (map (fun a => f a b) la)) lb).
Proof.
  induction la; intros lb; simpl.
  - rewrite zsum_nil. symmetry. apply zsum_map_0. auto.
  - rewrite zsum_cons, IHla, <- zsum_map_plus. f_equal.
Qed.

(** Sum over a product of lists of a product of functions. *)
Lemma sum_cart : forall (fs : list (Z -> Z)) ls, length fs = length ls ->
  zsum (map (fun v => zprod (map2 (fun f x => f x) fs v)) (cart ls)) =
  zprod (map2 (fun f l => zsum (map f l)) fs ls).
Proof.
  induction fs as [|f fs IH]; intros [|l ls] L; simpl in L; try lia; [reflexivity|].
  cbn [cart map2]. rewrite zprod_cons, zsum_flat_map.
  rewrite <- IH by lia. rewrite Z.mul_comm, <- zsum_map_scale. apply zsum_map_ext.
  intros x _. rewrite map_map. cbn [map2]. rewrite Z.mul_comm, <- zsum_map_scale.
  apply zsum_map_ext. intros v _. rewrite zprod_cons. ring.
Qed.

Lemma shift_pow : forall x, 0 <= x -> powerOfTwoByBitshift x = 2 ^ x.
Proof. intros. unfold powerOfTwoByBitshift. rewrite Z.shiftl_mul_pow2 by auto. ring. Qed.

Lemma hier_sum1 : forall l b, 1 <= l ->
  zsum (map (fun k => numDofHierarchical1 k b) (zrange 1 (l + 1))) = dofNodal1 l b.
Proof.
  intros l b H. unfold dofNodal1. destruct (Z.gtb_spec l 0); [|lia]. rewrite shift_pow by lia.
  replace l with (1 + Z.of_nat (Z.to_nat (l - 1))) by lia.
  induction (Z.to_nat (l - 1)) as [|n IH].
  - change (zrange 1 (1 + Z.of_nat 0 + 1)) with [1]. cbn [map]. rewrite zsum_cons, zsum_nil. simpl.
    change (2 ^ 1) with 2. unfold numDofHierarchical1. simpl. change (2 ^ (1 + 0)) with 2. ring.
  - rewrite zrange_snoc by lia. replace (1 + Z.of_nat (S n) + 1 - 1) with (1 + Z.of_nat n + 1) by lia.
    rewrite map_app, zsum_app, IH. cbn [map]. rewrite zsum_cons, zsum_nil.
    unfold numDofHierarchical1. destruct (Z.eqb_spec (1 + Z.of_nat n + 1) 1); [lia|].
    rewrite shift_pow by lia. replace (1 + Z.of_nat n + 1 - 1) with (1 + Z.of_nat n) by lia.
    replace (1 + Z.of_nat (S n)) with (Z.succ (1 + Z.of_nat n)) by lia. rewrite Z.pow_succ_r by lia. ring.
Qed.

Lemma map2_swap : forall (A B C : Type) (f : A -> B -> C) a b, map2 f a b = map2 (fun y x => f x y) b a.
Proof. induction a; destruct b; simpl; auto. now rewrite IHa. Qed.

Lemma map2_map_l : forall (A B C D : Type) (f : B -> C -> D) (g : A -> B) a b,
  map2 f (map g a) b = map2 (fun x y => f (g x) y) a b.
Proof. induction a; destruct b; simpl; auto. now rewrite IHa. Qed.

Lemma map2_map_r : forall (A B C D : Type) (f : A -> C -> D) (g : B -> C) a b,
  map2 f a (map g b) = map2 (fun x y => f x (g y)) a b.
Proof. induction a; destruct b; simpl; auto. now rewrite IHa. Qed.

Lemma map_map2 : forall (A B C D : Type) (g : C -> D) (f : A -> B -> C) a b,
  map g (map2 f a b) = map2 (fun x y => g (f x y)) a b.
Proof. induction a; destruct b; simpl; auto. now rewrite IHa. Qed.

Lemma map2_ext_Forall2 : forall (A B C : Type) (f g : A -> B -> C) a b,
  Forall2 (fun x y => f x y = g x y) a b -> map2 f a b = map2 g a b.
Proof. induction 1; simpl; auto. congruence. Qed.

Theorem hier_total : forall l b, length l = length b -> Forall (fun x => 1 <= x) l ->
  numDofHierarchicalSet (getDownSet l) b = numDofNodal l b.
Proof.
  intros l b L P. unfold numDofHierarchicalSet. rewrite fold_add_map with (f := fun l => numDofHierarchical l b).
  rewrite numDofNodal_map2, getDownSet_cart.
  transitivity (zsum (map (fun v => zprod (map2 (fun f x => f x) (map (fun y x => numDofHierarchical1 x y) b) v))
                          (cart (map (fun x => zrange 1 (x + 1)) l)))).
  - rewrite Z.add_0_l. apply zsum_map_ext. intros v _. rewrite numDofHierarchical_map2, map2_swap.
    now rewrite map2_map_l.
  - rewrite sum_cart by (rewrite !map_length; lia). f_equal. rewrite map2_map_l, map2_map_r, map2_swap.
    clear -L P. revert b L. induction P; intros [|y b] L; simpl in *; try lia; auto.
    f_equal; [|apply IHP; lia]. now apply hier_sum1.
Qed.

(** Linear indices enumerate the product of index ranges. *)
Lemma unlin_enumerates : forall sizes, posExt sizes ->
  Permutation (map (unlin sizes) (zrange 0 (zprod sizes))) (cart (map (fun s => zrange 0 s) sizes)).
Proof.
  intros sizes P. apply NoDup_Permutation.
  - apply NoDup_map_inj; [apply zrange_NoDup|]. intros a c Ha Hc E.
    apply zrange_In in Ha. apply zrange_In in Hc.
    rewrite <- (lin_unlin sizes a), <- (lin_unlin sizes c) by auto. now rewrite E.
  - apply cart_NoDup. apply Forall_forall. intros l Hl. apply in_map_iff in Hl. destruct Hl as [s [<- _]].
    apply zrange_NoDup.
  - intros v. rewrite cart_In. split.
    + intros H. apply in_map_iff in H. destruct H as [k [<- Hk]]. pose proof (unlin_inBox sizes k P) as B.
      unfold inBox in B. clear -B. induction B; simpl; constructor; auto. apply zrange_In. auto.
    + intros H. assert (B : inBox sizes v).
      { unfold inBox. clear -H. remember (map (fun s => zrange 0 s) sizes) as m. revert sizes Heqm.
        induction H; intros [|s sizes] E; simpl in E; try discriminate; constructor.
        - inversion E; subst. apply zrange_In in H. auto.
        - inversion E; subst. auto. }
      apply in_map_iff. exists (lin sizes v). split; [now apply unlin_lin|]. apply zrange_In. now apply lin_range.
Qed.

Lemma nth_zrange_sum : forall e, zsum (map (fun k => nth (Z.to_nat k) e 0) (zrange 0 (Z.of_nat (length e)))) = zsum e.
Proof.
  intros e. f_equal. apply nth_ext_Z.
  - rewrite map_length, zrange_length. lia.
  - intros i Hi. rewrite map_length, zrange_length in Hi.
    rewrite (nth_indep _ 0 (nth (Z.to_nat 0) e 0)) by (rewrite map_length, zrange_length; lia).
    rewrite (map_nth (fun k => nth (Z.to_nat k) e 0)). unfold zrange. rewrite zseq_nth by lia.
    f_equal. lia.
Qed.

Lemma loop_length : forall l r starts done, length (fst (subspaceExtentsLoop l r done starts)) = length starts.
Proof.
  induction starts as [|s rest IH]; intros done; cbn [subspaceExtentsLoop]; auto. cbv zeta.
  destruct (highestIndexBelow l s r =? -1).
  - specialize (IH done). destruct (subspaceExtentsLoop l r done rest). simpl in *. lia.
  - specialize (IH (highestIndexBelow l s r)). destruct (subspaceExtentsLoop l r (highestIndexBelow l s r) rest).
    simpl in *. lia.
Qed.

Lemma loop_sum : forall l r starts done,
  zsum (fst (subspaceExtentsLoop l r done starts)) = snd (subspaceExtentsLoop l r done starts) - done.
Proof.
  induction starts as [|s rest IH]; intros done; cbn [subspaceExtentsLoop].
  - cbn [fst snd]. rewrite zsum_nil. ring.
  - cbv zeta. destruct (highestIndexBelow l s r =? -1).
    + specialize (IH done). destruct (subspaceExtentsLoop l r done rest). cbn [fst snd] in *. rewrite zsum_cons. lia.
    + specialize (IH (highestIndexBelow l s r)). destruct (subspaceExtentsLoop l r (highestIndexBelow l s r) rest).
      cbn [fst snd] in *. rewrite zsum_cons. lia.
Qed.

Lemma extents_length : forall l r dec, dec <> [] -> length (subspaceExtents l r dec) = length dec.
Proof.
  intros l r dec H. unfold subspaceExtents. pose proof (loop_length l r (tl dec) (-1)) as L.
  destruct (subspaceExtentsLoop l r (-1) (tl dec)). simpl in L. rewrite app_length, L. destruct dec; [congruence|].
  simpl. lia.
Qed.

Lemma extents_sum : forall l r dec,
  zsum (subspaceExtents l r dec) = if l =? 1 then 3 else powerOfTwo (l - 1).
Proof.
  intros l r dec. unfold subspaceExtents. pose proof (loop_sum l r (tl dec) (-1)) as L.
  destruct (subspaceExtentsLoop l r (-1) (tl dec)). cbn [fst snd] in L.
  rewrite zsum_app, zsum_cons, zsum_nil, L. lia.
Qed.

Lemma processDof_sum : forall extents sizes, posExt sizes ->
  Forall2 (fun e s => Z.of_nat (length e) = s) extents sizes ->
  zsum (map (processDof extents sizes) (zrange 0 (zprod sizes))) = zprod (map zsum extents).
Proof.
  intros extents sizes P F. unfold processDof.
  transitivity (zsum (map (fun v => zprod (map2 (fun f x => f x) (map (fun e k => nth (Z.to_nat k) e 0) extents) v))
                          (cart (map (fun s => zrange 0 s) sizes)))).
  - rewrite <- (zsum_perm _ _ (Permutation_map _ (unlin_enumerates sizes P))). rewrite map_map.
    apply zsum_map_ext. intros k Hk. apply zrange_In in Hk. rewrite getVectorIndex_unlin by auto.
    now rewrite map2_map_l.
  - apply Forall2_length in F as L.
    rewrite sum_cart by (rewrite !map_length; lia). f_equal.
    rewrite map2_map_l, map2_map_r. clear -F. induction F; simpl; auto.
    f_equal; auto. subst. apply nth_zrange_sum.
Qed.

Lemma sgSubspaceDof_prod : forall l,
  sgSubspaceDof l = zprod (map (fun x => if x >? 1 then powerOfTwo (x - 1) else 3) l).
Proof.
  intros. unfold sgSubspaceDof. rewrite fold_mul_map with (f := fun x => if x >? 1 then powerOfTwo (x - 1) else 3).
  ring.
Qed.

Theorem partitioned_total : forall downSet ref dec,
  Forall (fun d => d <> []) dec -> length ref = length dec ->
  Forall (fun l => length l = length dec /\ Forall (fun x => 1 <= x) l) downSet ->
  zsum (partitionedNumDof downSet ref dec) = sgDegreesOfFreedom downSet.
Proof.
  intros downSet ref dec Hd Hr Hl. unfold partitionedNumDof, sgDegreesOfFreedom. cbv zeta.
  set (sizes := map (fun d : list Z => Z.of_nat (length d)) dec).
  change (fold_left Z.mul sizes 1) with (commSize sizes). rewrite commSize_prod.
  rewrite zsum_swap. rewrite fold_add_map with (f := sgSubspaceDof). rewrite Z.add_0_l.
  assert (P : posExt sizes).
  { unfold sizes, posExt. apply Forall_forall. intros x Hx. apply in_map_iff in Hx.
    destruct Hx as [d [<- Hx]]. rewrite Forall_forall in Hd. specialize (Hd d Hx). destruct d; [congruence|].
    simpl. lia. }
  apply zsum_map_ext. intros l Hin. rewrite Forall_forall in Hl. specialize (Hl l Hin). destruct Hl as [L PL].
  rewrite processDof_sum; auto.
  - rewrite sgSubspaceDof_prod. f_equal. rewrite map_map2. clear -L PL Hr.
    revert ref dec Hr L. induction PL; intros [|r ref] [|d dec] Hr L; simpl in *; try lia; auto.
    f_equal; [|apply IHPL; lia]. rewrite extents_sum. destruct (Z.eqb_spec x 1); destruct (Z.gtb_spec x 1); lia.
  - unfold sizes. clear -L Hd Hr. revert ref l Hr L.
    induction Hd; intros [|r ref] [|y l0] Hr L; simpl in *; try lia; constructor.
    + rewrite extents_length by auto. reflexivity.
    + apply IHHd; lia.
Qed.

(** Number of points of level [l] of a 1d grid with both boundary points (level [r]) left of index [s]. *)
From Verif Require Import DecompModel DecompProofs Level1dModel Level1dProofs.

Definition pointsBelow (l r s : Z) : Z :=
  Z.max 0 (cdiv (s - offsetForLevel 2 r l) (strideForLevel 2 r l)).

Lemma pointsBelow_spec : forall l r s i, 1 <= l <= r -> 0 <= i ->
  (i < pointsBelow l r s <-> offsetForLevel 2 r l + i * strideForLevel 2 r l < s).
Proof.
  intros l r s i Hl Hi. unfold pointsBelow. pose proof (stride_pos 2 r l Hl) as SP.
  pose proof (cdiv_lt (s - offsetForLevel 2 r l) _ i SP). lia.
Qed.

Lemma pointsBelow_mono : forall l r s t, 1 <= l <= r -> s <= t -> pointsBelow l r s <= pointsBelow l r t.
Proof.
  intros l r s t Hl Hst. unfold pointsBelow. pose proof (stride_pos 2 r l Hl) as SP.
  pose proof (cdiv_le (s - offsetForLevel 2 r l) _ (cdiv (t - offsetForLevel 2 r l) (strideForLevel 2 r l)) SP).
  pose proof (proj1 (cdiv_le (t - offsetForLevel 2 r l) _ _ SP) (Z.le_refl _)). lia.
Qed.

Lemma indices_count : forall l r lo up, 1 <= l <= r -> 0 <= lo <= up ->
  Z.of_nat (length (indices1dLocal 2 r lo up l)) = pointsBelow l r up - pointsBelow l r lo.
Proof.
  intros l r lo up Hl Hlo. pose proof (stride_pos 2 r l Hl) as SP.
  assert (N0 : 0 <= pointsBelow l r lo) by (unfold pointsBelow; lia).
  assert (P : Permutation (indices1dLocal 2 r lo up l)
     (map (fun i => offsetForLevel 2 r l + i * strideForLevel 2 r l - lo)
          (zrange (pointsBelow l r lo) (pointsBelow l r up)))).
  { apply NoDup_Permutation.
    - apply StronglySorted_lt_NoDup, indices_sorted. lia.
    - apply NoDup_map_inj; [apply zrange_NoDup|]. intros a b _ _ E. nia.
    - intros x. rewrite indices_In by lia. rewrite in_map_iff. split.
      + intros [Hx [m [Hm E]]]. exists m. split; [lia|]. apply zrange_In.
        pose proof (pointsBelow_spec l r lo m Hl Hm). pose proof (pointsBelow_spec l r up m Hl Hm). lia.
      + intros [m [E Hm]]. apply zrange_In in Hm.
        pose proof (pointsBelow_spec l r lo m Hl ltac:(lia)). pose proof (pointsBelow_spec l r up m Hl ltac:(lia)).
        split; [lia|]. exists m. lia. }
  apply Permutation_length in P. rewrite P, map_length, zrange_length.
  pose proof (pointsBelow_mono l r lo up Hl ltac:(lia)). lia.
Qed.

Lemma powerOfTwo_spec : forall i, 0 <= i <= 28 -> powerOfTwo i = 2 ^ i.
Proof.
  intros i H. unfold powerOfTwo. destruct (Z.ltb_spec i 0); [lia|].
  rewrite <- (Z2Nat.id i) at 2 by lia. assert (Z.to_nat i <= 28)%nat as L by lia.
  generalize dependent (Z.to_nat i). intros n L. do 29 (destruct n as [|n]; [reflexivity|]). lia.
Qed.

Lemma highest_pointsBelow : forall l r s, 1 <= l <= r -> r <= 28 -> 0 <= s ->
  (l = 1 -> s <> 2 ^ (r - 1) /\ s <> 2 ^ r) -> s <= 2 ^ r ->
  highestIndexBelow l s r + 1 = pointsBelow l r s.
Proof.
  intros l r s Hl Hr Hs Hn Hm. unfold highestIndexBelow. destruct (Z.eqb_spec l 1) as [->|Hl1].
  - specialize (Hn eq_refl). rewrite powerOfTwo_spec by lia.
    assert (E : 2 ^ r = 2 ^ (r - 1) * 2).
    { replace r with (Z.succ (r - 1)) at 1 by lia. rewrite Z.pow_succ_r by lia. ring. }
    pose proof (pow2_pos (r - 1) ltac:(lia)) as PP.
    rewrite E at 2. rewrite Z.div_mul by lia.
    pose proof (pointsBelow_spec 1 r s) as S.
    assert (O : offsetForLevel 2 r 1 = 0) by reflexivity. assert (T : strideForLevel 2 r 1 = 2 ^ (r - 1)) by reflexivity.
    rewrite O, T in S. pose proof (S 0 Hl ltac:(lia)) as S0. pose proof (S 1 Hl ltac:(lia)) as S1.
    assert (0 <= pointsBelow 1 r s) by (unfold pointsBelow; lia). rewrite E in *. clear E. clear S.
    assert (S2 : pointsBelow 1 r s <= 2).
    { unfold pointsBelow. rewrite O, T. apply Z.max_lub; [lia|]. apply cdiv_le; lia. }
    destruct (Z.gtb_spec s 0); repeat match goal with |- context [?a >=? ?b] => destruct (Z.geb_spec a b) end; try lia.
  - cbv zeta. rewrite powerOfTwo_spec by lia. unfold pointsBelow.
    assert (O : offsetForLevel 2 r l = 2 ^ (r - l)).
    { unfold offsetForLevel. simpl. destruct (Z.eqb_spec l 1); [lia|reflexivity]. }
    assert (T : strideForLevel 2 r l = 2 * 2 ^ (r - l)).
    { unfold strideForLevel. destruct (Z.eqb_spec l 1); [lia|]. cbn [andb].
      replace (r - l + 1) with (Z.succ (r - l)) by lia. now rewrite Z.pow_succ_r by lia. }
    rewrite O, T. pose proof (pow2_pos (r - l) ltac:(lia)) as PP.
    fold (cdiv (s - 2 ^ (r - l)) (2 * 2 ^ (r - l))).
    destruct (Z.gtb_spec s (2 ^ (r - l))).
    + pose proof (cdiv_lt (s - 2 ^ (r - l)) (2 * 2 ^ (r - l)) 0 ltac:(lia)). lia.
    + pose proof (cdiv_le (s - 2 ^ (r - l)) (2 * 2 ^ (r - l)) 0 ltac:(lia)). lia.
Qed.

Lemma pointsBelow_all : forall l r, 1 <= l <= r ->
  pointsBelow l r (2 ^ r + 1) = if l =? 1 then 3 else 2 ^ (l - 1).
Proof.
  intros l r Hl. pose proof (pointsBelow_spec l r (2 ^ r + 1)) as S.
  assert (N0 : 0 <= pointsBelow l r (2 ^ r + 1)) by (unfold pointsBelow; lia).
  destruct (Z.eqb_spec l 1) as [->|Hl1].
  - assert (O : offsetForLevel 2 r 1 = 0) by reflexivity. assert (T : strideForLevel 2 r 1 = 2 ^ (r - 1)) by reflexivity.
    rewrite O, T in S.
    assert (E : 2 ^ r = 2 * 2 ^ (r - 1)).
    { replace r with (Z.succ (r - 1)) at 1 by lia. now rewrite Z.pow_succ_r by lia. }
    pose proof (pow2_pos (r - 1) ltac:(lia)) as PP.
    pose proof (S 2 Hl ltac:(lia)). pose proof (S 3 Hl ltac:(lia)). lia.
  - assert (O : offsetForLevel 2 r l = 2 ^ (r - l)).
    { unfold offsetForLevel. simpl. destruct (Z.eqb_spec l 1); [lia|reflexivity]. }
    assert (T : strideForLevel 2 r l = 2 * 2 ^ (r - l)).
    { unfold strideForLevel. destruct (Z.eqb_spec l 1); [lia|]. cbn [andb].
      replace (r - l + 1) with (Z.succ (r - l)) by lia. now rewrite Z.pow_succ_r by lia. }
    rewrite O, T in S. pose proof (pow2_pos (r - l) ltac:(lia)) as PP. pose proof (pow2_pos (l - 1) ltac:(lia)) as PL.
    assert (E : 2 ^ r = 2 * 2 ^ (l - 1) * 2 ^ (r - l)).
    { rewrite <- (Z.pow_succ_r 2 (l - 1)) by lia. rewrite <- Z.pow_add_r by lia. f_equal. lia. }
    pose proof (S (2 ^ (l - 1) - 1) Hl ltac:(lia)). pose proof (S (2 ^ (l - 1)) Hl ltac:(lia)). nia.
Qed.

Definition noMiddle (l r s : Z) : Prop := l = 1 -> s <> 2 ^ (r - 1) /\ s <> 2 ^ r.

Lemma loop_counts : forall l r starts prev, 1 <= l <= r -> r <= 28 -> 0 <= prev ->
  StronglySorted Z.lt (prev :: starts) -> Forall (fun s => s <= 2 ^ r /\ noMiddle l r s) (prev :: starts) ->
  snd (subspaceExtentsLoop l r (highestIndexBelow l prev r) starts) + 1 = pointsBelow l r (last (prev :: starts) 0) /\
  forall k, (k < length starts)%nat ->
    nth k (fst (subspaceExtentsLoop l r (highestIndexBelow l prev r) starts)) 0
    = pointsBelow l r (nth k starts 0) - pointsBelow l r (nth k (prev :: starts) 0).
Proof.
  intros l r starts. induction starts as [|s rest IH]; intros prev Hl Hr Hp SS F.
  - cbn [subspaceExtentsLoop snd last]. split; [|simpl; intros; lia].
    inv F. apply highest_pointsBelow; unfold noMiddle in *; tauto.
  - inv F. match goal with H : _ /\ _ |- _ => destruct H as [P1 P2] end.
    match goal with H : Forall _ (s :: rest) |- _ => rename H into F end.
    pose proof F as F'. inv F'. match goal with H : s <= _ /\ _ |- _ => destruct H as [Q1 Q2] end.
    apply StronglySorted_inv in SS as [SS FP]. inv FP.
    assert (EP : highestIndexBelow l prev r + 1 = pointsBelow l r prev) by (apply highest_pointsBelow; auto).
    assert (ES : highestIndexBelow l s r + 1 = pointsBelow l r s) by (apply highest_pointsBelow; auto; lia).
    specialize (IH s Hl Hr ltac:(lia) SS F).
    cbn [subspaceExtentsLoop]. cbv zeta.
    pose proof (pointsBelow_mono l r prev s Hl ltac:(lia)) as M.
    assert (0 <= pointsBelow l r prev) by (unfold pointsBelow; lia).
    destruct (Z.eqb_spec (highestIndexBelow l s r) (-1)) as [E|E].
    + assert (EE : highestIndexBelow l prev r = highestIndexBelow l s r) by lia. rewrite EE.
      destruct (subspaceExtentsLoop l r (highestIndexBelow l s r) rest) as [e d]. cbn [fst snd] in *.
      destruct IH as [I1 I2]. split; [exact I1|]. intros [|k] Hk; cbn [nth].
      * lia.
      * apply I2. simpl in Hk. lia.
    + destruct (subspaceExtentsLoop l r (highestIndexBelow l s r) rest) as [e d]. cbn [fst snd] in *.
      destruct IH as [I1 I2]. split; [exact I1|]. intros [|k] Hk; cbn [nth].
      * lia.
      * apply I2. simpl in Hk. lia.
Qed.

Lemma validDec1_sorted : forall dec n, validDec1 dec n -> StronglySorted Z.lt dec.
Proof.
  intros dec n (_ & M & _). clear n. induction dec as [|x dec IH]; [constructor|]. constructor.
  - apply IH. intros i j H. specialize (M (S i) (S j) ltac:(simpl; lia)). exact M.
  - apply Forall_forall. intros y Hy. apply (In_nth _ _ 0) in Hy as [j [Hj <-]].
    specialize (M 0%nat (S j) ltac:(simpl; lia)). exact M.
Qed.

Theorem extents_count : forall l r dec k, 1 <= l <= r -> r <= 28 -> validDec1 dec (2 ^ r + 1) ->
  Forall (noMiddle l r) dec -> (k < length dec)%nat ->
  nth k (subspaceExtents l r dec) 0
  = Z.of_nat (length (indices1dLocal 2 r (lo1 dec (Z.of_nat k)) (up1 dec (2 ^ r + 1) (Z.of_nat k)) l)).
Proof.
  intros l r dec k Hl Hr V NM Hk.
  pose proof (validDec1_range dec _ (Z.of_nat k) V ltac:(lia)) as R. rewrite indices_count by lia.
  pose proof (validDec1_nonempty _ _ V) as [_ D0]. pose proof (validDec1_sorted _ _ V) as SS.
  destruct V as (_ & _ & VU). destruct dec as [|d0 starts]; [simpl in Hk; lia|]. simpl in D0. subst d0.
  assert (F : Forall (fun s => s <= 2 ^ r /\ noMiddle l r s) (0 :: starts)).
  { apply Forall_forall. intros s Hs. rewrite Forall_forall in NM. split; auto.
    apply (In_nth _ _ 0) in Hs as [j [Hj <-]]. specialize (VU j Hj). lia. }
  destruct (loop_counts l r starts 0 Hl Hr ltac:(lia) SS F) as [A B].
  assert (H0 : highestIndexBelow l 0 r = -1).
  { inv F. match goal with H : _ /\ _ |- _ => destruct H as [Q1 Q2] end.
    pose proof (highest_pointsBelow l r 0 Hl Hr ltac:(lia) Q2 Q1) as E.
    assert (pointsBelow l r 0 <= 0); [|unfold pointsBelow in *; lia].
    unfold pointsBelow. apply Z.max_lub; [lia|]. apply cdiv_le; [apply stride_pos; lia|].
    pose proof (pow2_pos (r - l) ltac:(lia)). unfold offsetForLevel. simpl. destruct (l =? 1); lia. }
  rewrite H0 in *. unfold subspaceExtents. cbn [tl].
  pose proof (loop_length l r starts (-1)) as LL.
  destruct (subspaceExtentsLoop l r (-1) starts) as [e d]. cbn [fst snd] in *.
  unfold lo1, up1. rewrite Nat2Z.id. cbn [length] in *.
  destruct (Z.ltb_spec (Z.of_nat k) (Z.of_nat (S (length starts)) - 1)).
  - rewrite app_nth1 by lia. rewrite B by lia. replace (Z.to_nat (Z.of_nat k + 1)) with (S k) by lia. reflexivity.
  - assert (k = length starts) by lia. subst k. rewrite app_nth2 by lia. rewrite LL, Nat.sub_diag. cbn [nth].
    rewrite pointsBelow_all by lia.
    assert (EL : last (0 :: starts) 0 = nth (length starts) (0 :: starts) 0).
    { clear. generalize 0 at 1 3. induction starts as [|s rest IH]; intros z; [reflexivity|].
      change (last (z :: s :: rest) 0) with (last (s :: rest) 0). rewrite IH. reflexivity. }
    rewrite EL in A. cbn [nth] in A. destruct (Z.eqb_spec l 1); [lia|]. rewrite powerOfTwo_spec by lia. lia.
Qed.
