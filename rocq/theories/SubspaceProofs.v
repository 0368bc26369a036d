(** Proofs about SubspaceModel.v. *)
From Verif Require Import Base TensorModel TensorProofs PartitionProofs DecompModel DecompProofs
  Level1dModel Level1dProofs LevelSetsModel LevelSetsProofs SubspaceModel.

(** A well-formed grid part: levels from 1, bounds inside the grid (empty parts are allowed). *)
Definition wfGrid (g : Grid) : Prop :=
  length (gBnd g) = length (gLevel g) /\ length (gLower g) = length (gLevel g) /\
  length (gUpper g) = length (gLevel g) /\
  forall i, (i < length (gLevel g))%nat ->
    1 <= nth i (gLevel g) 0 /\ 0 <= nth i (gBnd g) 0 <= 2 /\
    0 <= nth i (gLower g) 0 <= nth i (gUpper g) 0 /\
    nth i (gUpper g) 0 <= 2 ^ nth i (gLevel g) 0 + nth i (gBnd g) 0 - 1.

Fixpoint dot (o v : list Z) : Z :=
  match o, v with a :: o', x :: v' => a * x + dot o' v' | _, _ => 0 end.

Lemma fgPointsRec_cart : forall dr s,
  fgPointsRec dr s = map (fun v => s + dot (map fst dr) v) (cart (map snd dr)).
Proof.
  induction dr as [|[off idx] dr IH]; intros s; cbn [fgPointsRec map cart].
  - simpl. f_equal. ring.
  - rewrite flat_map_concat_map, flat_map_concat_map, concat_map, map_map. cbn [snd fst]. f_equal.
    apply map_ext. intros i. rewrite IH, map_map. apply map_ext. intros v. cbn [dot]. ring.
Qed.

Lemma dot_app : forall a b v w, length a = length v -> dot (a ++ b) (v ++ w) = dot a v + dot b w.
Proof.
  induction a as [|x a IH]; intros b [|y v] w H; simpl in *; try lia. rewrite IH by lia. ring.
Qed.

Lemma dot_rev : forall a v, length a = length v -> dot (rev a) v = dot a (rev v).
Proof.
  induction a as [|x a IH]; intros v H; [destruct v; simpl in *; auto; lia|].
  destruct (exists_last (l := v)) as [v' [y ->]]; [destruct v; simpl in H; [lia|discriminate]|].
  rewrite app_length in H. simpl in H. cbn [rev]. rewrite rev_app_distr. cbn [rev app dot].
  rewrite dot_app by (rewrite rev_length; lia). rewrite IH by lia. simpl. ring.
Qed.

Lemma dot_offsets : forall ext acc v, length ext = length v -> dot (offsetsFrom acc ext) v = acc * lin ext v.
Proof.
  induction ext as [|e ext IH]; intros acc [|x v] H; simpl in *; try lia. rewrite IH by lia. ring.
Qed.

Lemma offsetsFrom_length : forall ext acc, length (offsetsFrom acc ext) = length ext.
Proof. induction ext; intros; simpl; auto. Qed.

Lemma combine_fst : forall (A B : Type) (a : list A) (b : list B), length a = length b -> map fst (combine a b) = a.
Proof. induction a; destruct b; simpl; intros; try lia; auto. f_equal. auto. Qed.
Lemma combine_snd : forall (A B : Type) (a : list A) (b : list B), length a = length b -> map snd (combine a b) = b.
Proof. induction a; destruct b; simpl; intros; try lia; auto. f_equal. auto. Qed.

Lemma cart_elem_length : forall ls v, In v (cart ls) -> length v = length ls.
Proof. intros ls v H. apply cart_In in H. apply Forall2_length in H. auto. Qed.

Lemma num_zprod : forall idxs, fold_left (fun acc (i : list Z) => acc * Z.of_nat (length i)) idxs 1
  = zprod (map (fun l => Z.of_nat (length l)) idxs).
Proof.
  assert (G : forall idxs a, fold_left (fun acc (i : list Z) => acc * Z.of_nat (length i)) idxs a
    = a * zprod (map (fun l => Z.of_nat (length l)) idxs)).
  { induction idxs as [|i idxs IH]; intros a; cbn [fold_left map]; [unfold zprod; simpl; ring|].
    rewrite IH. unfold zprod. cbn [fold_right]. ring. }
  intros. rewrite G. ring.
Qed.

Lemma map_rev_cart_nil : forall idxs, Z.of_nat (length (cart idxs)) <= 0 -> cart (rev idxs) = [].
Proof.
  intros idxs H. rewrite cart_length in H.
  assert (L : Z.of_nat (length (cart (rev idxs))) <= 0).
  { rewrite cart_length, map_rev, zprod_rev. auto. }
  destruct (cart (rev idxs)); simpl in *; auto. lia.
Qed.

Lemma fgPoints_struct : forall sizes idxs, length idxs = length sizes ->
  (if fold_left (fun acc (i : list Z) => acc * Z.of_nat (length i)) idxs 1 >? 0
   then fgPointsRec (rev (combine (localOffsets sizes) idxs)) 0 else [])
  = map (fun v => lin sizes (rev v)) (cart (rev idxs)).
Proof.
  intros sizes idxs H. rewrite num_zprod, <- cart_length.
  destruct (Z.gtb_spec (Z.of_nat (length (cart idxs))) 0) as [G|G].
  - rewrite fgPointsRec_cart, !map_rev.
    rewrite combine_fst, combine_snd by (unfold localOffsets; rewrite offsetsFrom_length; auto).
    apply map_ext_in. intros v Hv. apply cart_elem_length in Hv. rewrite rev_length in Hv.
    rewrite dot_rev by (unfold localOffsets; rewrite offsetsFrom_length; lia).
    unfold localOffsets. rewrite dot_offsets by (rewrite rev_length; lia). ring.
  - rewrite map_rev_cart_nil by lia. reflexivity.
Qed.

Lemma oneDIndices_length : forall levels bs lo up l,
  length bs = length levels -> length lo = length levels -> length up = length levels -> length l = length levels ->
  length (oneDIndices levels bs lo up l) = length levels.
Proof.
  induction levels as [|L levels IH]; intros [|b bs] [|w lo] [|u up] [|k l] H1 H2 H3 H4; simpl in *; try lia.
  rewrite IH; lia.
Qed.

Lemma oneDIndices_nth : forall levels bs lo up l i,
  length bs = length levels -> length lo = length levels -> length up = length levels -> length l = length levels ->
  (i < length levels)%nat ->
  nth i (oneDIndices levels bs lo up l) []
  = indices1dLocal (nth i bs 0) (nth i levels 0) (nth i lo 0) (nth i up 0) (nth i l 0).
Proof.
  induction levels as [|L levels IH]; intros [|b bs] [|w lo] [|u up] [|k l] i H1 H2 H3 H4 Hi; simpl in *; try lia.
  destruct i; auto. apply IH; lia.
Qed.

Lemma anyGreater_false : forall l levels, length l = length levels ->
  (anyGreater l levels = false <-> Forall2 Z.le l levels).
Proof.
  unfold anyGreater. induction l as [|x l IH]; intros [|y levels] H; simpl in *; try lia.
  - split; auto.
  - rewrite orb_false_iff, IH by lia. destruct (Z.gtb_spec x y); split.
    + intros [E _]. discriminate.
    + intros F. inv F. lia.
    + intros [_ F]. constructor; auto.
    + intros F. inv F. auto.
Qed.

Lemma vsub_nth : forall a b i, length a = length b -> (i < length a)%nat -> nth i (vsub a b) 0 = nth i a 0 - nth i b 0.
Proof.
  induction a as [|x a IH]; intros [|y b] [|i] H Hi; simpl in *; try lia. apply IH; lia.
Qed.

Lemma gSizes_length : forall g, wfGrid g -> length (gSizes g) = length (gLevel g).
Proof. intros g (H1 & H2 & H3 & _). unfold gSizes. rewrite vsub_length; lia. Qed.

Lemma gSizes_nth : forall g i, wfGrid g -> (i < length (gLevel g))%nat ->
  nth i (gSizes g) 0 = nth i (gUpper g) 0 - nth i (gLower g) 0.
Proof. intros g i (H1 & H2 & H3 & _) Hi. unfold gSizes. apply vsub_nth; lia. Qed.

(** The points of subspace [l] in terms of the product of the 1d index lists. *)
Lemma fgPoints_cart : forall g l, wfGrid g -> Forall2 Z.le l (gLevel g) ->
  fgPointsOfSubspace g l
  = map (fun v => lin (gSizes g) (rev v))
        (cart (rev (oneDIndices (gLevel g) (gBnd g) (gLower g) (gUpper g) l))).
Proof.
  intros g l W F. pose proof W as (H1 & H2 & H3 & _). unfold fgPointsOfSubspace.
  pose proof (Forall2_length _ _ _ _ _ F) as Ll.
  rewrite (proj2 (anyGreater_false l (gLevel g) Ll) F). apply fgPoints_struct.
  rewrite oneDIndices_length by lia. now rewrite gSizes_length.
Qed.

Lemma In_cart_rev : forall ls v, In v (cart (rev ls)) <-> In (rev v) (cart ls).
Proof.
  intros. rewrite !cart_In. split; intros H; apply Forall2_rev' in H.
  - now rewrite rev_involutive in H.
  - now rewrite rev_involutive in H.
Qed.

(** Levels (at least one) of the local point [v] of grid [g]. *)
Definition pointLevel (g : Grid) (v : list Z) : list Z :=
  map (fun i => Z.max 1 (getLevel (nth i (gBnd g) 0) (nth i (gLevel g) 0) (nth i (gLower g) 0 + nth i v 0)))
      (seq 0 (length (gLevel g))).

Lemma pointLevel_nth : forall g v i, (i < length (gLevel g))%nat ->
  nth i (pointLevel g v) 0
  = Z.max 1 (getLevel (nth i (gBnd g) 0) (nth i (gLevel g) 0) (nth i (gLower g) 0 + nth i v 0)).
Proof. intros. unfold pointLevel. now rewrite nth_map_seq. Qed.

Lemma pointLevel_length : forall g v, length (pointLevel g v) = length (gLevel g).
Proof. intros. unfold pointLevel. now rewrite map_length, seq_length. Qed.

Lemma cart_idx_In : forall g l v, wfGrid g -> Forall2 (fun x y => 1 <= x <= y) l (gLevel g) ->
  (In v (cart (oneDIndices (gLevel g) (gBnd g) (gLower g) (gUpper g) l)) <->
   inBox (gSizes g) v /\ pointLevel g v = l).
Proof.
  intros g l v W F. pose proof W as (H1 & H2 & H3 & H).
  pose proof (Forall2_length _ _ _ _ _ F) as Ll.
  pose proof (proj1 (Forall2_nth_iff _ _ _ 0 0 _ _) F) as [_ FN]. cbv beta in FN.
  rewrite cart_In, (Forall2_nth_iff _ _ _ [] 0), oneDIndices_length by lia.
  rewrite inBox_nth, gSizes_length by auto.
  assert (K : forall i, (i < length (gLevel g))%nat ->
    (In (nth i v 0) (nth i (oneDIndices (gLevel g) (gBnd g) (gLower g) (gUpper g) l) []) <->
     0 <= nth i v 0 < nth i (gSizes g) 0 /\ nth i (pointLevel g v) 0 = nth i l 0)).
  { intros i Hi. rewrite oneDIndices_nth by lia. destruct (H i Hi) as (A & B & C & D).
    specialize (FN i ltac:(lia)). rewrite indices_level by (auto; lia).
    rewrite pointLevel_nth, gSizes_nth by auto. tauto. }
  split.
  - intros [L HI]. split; [split; [auto|]|].
    + intros i Hi. apply (K i Hi). auto.
    + apply nth_ext_Z; rewrite pointLevel_length; auto. intros i Hi. apply (K i Hi). auto.
  - intros [[L HB] HL]. split; auto. intros i Hi. apply (K i Hi). split; auto. now rewrite HL.
Qed.

Lemma fgPoints_In : forall g l k, wfGrid g -> Forall2 (fun x y => 1 <= x <= y) l (gLevel g) ->
  (In k (fgPointsOfSubspace g l) <->
   exists v, inBox (gSizes g) v /\ pointLevel g v = l /\ k = lin (gSizes g) v).
Proof.
  intros g l k W F. rewrite fgPoints_cart; auto.
  2: { clear -F. induction F; constructor; auto; lia. }
  rewrite in_map_iff. split.
  - intros [v [<- Hv]]. apply In_cart_rev in Hv. apply cart_idx_In in Hv as [B P]; auto.
    exists (rev v). auto.
  - intros [v [B [P ->]]]. exists (rev v). rewrite rev_involutive. split; auto.
    apply In_cart_rev. rewrite rev_involutive. apply cart_idx_In; auto.
Qed.

Lemma fgPoints_NoDup : forall g l, wfGrid g -> Forall2 (fun x y => 1 <= x <= y) l (gLevel g) ->
  NoDup (fgPointsOfSubspace g l).
Proof.
  intros g l W F. pose proof W as (H1 & H2 & H3 & H).
  rewrite fgPoints_cart; auto. 2: { clear -F. induction F; constructor; auto; lia. }
  apply NoDup_map_inj.
  - apply cart_NoDup. apply Forall_rev.
    pose proof (Forall2_length _ _ _ _ _ F) as Ll.
    apply Forall_forall. intros x Hx. apply (In_nth _ _ []) in Hx. destruct Hx as [i [Hi <-]].
    rewrite oneDIndices_length in Hi by lia. rewrite oneDIndices_nth by lia.
    apply StronglySorted_lt_NoDup, indices_sorted.
    pose proof (proj1 (Forall2_nth_iff _ _ _ 0 0 _ _) F) as [_ FN]. apply FN. lia.
  - intros a b Ha Hb E. apply In_cart_rev in Ha, Hb. apply cart_idx_In in Ha as [Ba _]; auto.
    apply cart_idx_In in Hb as [Bb _]; auto. apply lin_inj in E; auto.
    rewrite <- (rev_involutive a), <- (rev_involutive b). congruence.
Qed.

Lemma pointLevel_range : forall g v, wfGrid g -> inBox (gSizes g) v ->
  Forall2 (fun L x => 1 <= x <= L) (gLevel g) (pointLevel g v).
Proof.
  intros g v W B. pose proof W as (H1 & H2 & H3 & H). apply inBox_nth in B as [LB B].
  rewrite gSizes_length in * by auto.
  apply (Forall2_nth_iff _ _ _ 0 0). rewrite pointLevel_length. split; auto.
  intros i Hi. rewrite pointLevel_nth by auto. destruct (H i Hi) as (A1 & A2 & A3 & A4).
  specialize (B i ltac:(lia)). rewrite gSizes_nth in B by auto.
  rewrite getLevel_lev. pose proof (lev_range (nth i (gLevel g) 0) _ ltac:(lia)
    (numDof_range (nth i (gBnd g) 0) (nth i (gLevel g) 0) (nth i (gLower g) 0 + nth i v 0) ltac:(lia) ltac:(lia))).
  lia.
Qed.

Lemma Forall2_flip_ : forall A B (R : A -> B -> Prop) a b, Forall2 R a b -> Forall2 (fun y x => R x y) b a.
Proof. induction 1; constructor; auto. Qed.

Lemma gSizes_nonneg_pos : forall g k, wfGrid g -> 0 <= k < zprod (gSizes g) -> posExt (gSizes g).
Proof.
  intros g k W Hk. pose proof W as (H1 & H2 & H3 & H).
  assert (NN : Forall (fun e => 0 <= e) (gSizes g)).
  { apply Forall_forall. intros x Hx. apply (In_nth _ _ 0) in Hx. destruct Hx as [i [Hi <-]].
    rewrite gSizes_length in Hi by auto. rewrite gSizes_nth by auto. destruct (H i Hi) as (A1 & A2 & A3 & A4). lia. }
  assert (PZ : 0 < zprod (gSizes g)) by lia. revert NN PZ. generalize (gSizes g). clear.
  unfold posExt. induction l as [|a l IH]; intros NN PZ; constructor; inv NN;
    change (zprod (a :: l)) with (a * zprod l) in PZ.
  - destruct (Z.eq_dec a 0) as [->|]; lia.
  - apply IH; auto. assert (0 <= zprod l) by (apply zprod_nonneg; auto). nia.
Qed.

(** Every local point is listed in exactly one subspace of the down set, exactly once. *)
Lemma subspaces_tile : forall g, wfGrid g ->
  Permutation (flat_map (fgPointsOfSubspace g) (getDownSet (gLevel g))) (zrange 0 (zprod (gSizes g))).
Proof.
  intros g W. pose proof W as (H1 & H2 & H3 & H).
  assert (DS : forall l, In l (getDownSet (gLevel g)) -> Forall2 (fun x y => 1 <= x <= y) l (gLevel g)).
  { intros l Hl. apply getDownSet_In in Hl. apply Forall2_flip_ in Hl. auto. }
  apply NoDup_Permutation_ext.
  - apply NoDup_flat_map.
    + apply lexsorted_NoDup, downSetRec_sorted.
    + intros l Hl. apply fgPoints_NoDup; auto.
    + intros a b k Ha Hb Hka Hkb. apply fgPoints_In in Hka as [v [B [P ->]]]; auto.
      apply fgPoints_In in Hkb as [w [B' [P' E]]]; auto. apply lin_inj in E; auto. subst. auto.
  - apply zrange_NoDup.
  - intros k. rewrite in_flat_map, zrange_In. split.
    + intros [l [Hl Hk]]. apply fgPoints_In in Hk as [v [B [P ->]]]; auto. now apply lin_range.
    + intros Hk. pose proof (gSizes_nonneg_pos g k W Hk) as PE.
      pose proof (unlin_inBox (gSizes g) k PE) as B.
      exists (pointLevel g (unlin (gSizes g) k)).
      assert (HIn : In (pointLevel g (unlin (gSizes g) k)) (getDownSet (gLevel g))).
      { apply getDownSet_In. now apply pointLevel_range. }
      split; auto. apply fgPoints_In; auto. exists (unlin (gSizes g) k). split; auto. split; auto.
      symmetry. now apply lin_unlin.
Qed.

(** ** Coordinates of the listed points *)

(** Position of a local point on the reference level [R], per dimension. *)
Definition refPos1 (R L b lo x : Z) : Z := gridPos b (lo + x) * 2 ^ (R - L).

Definition refPos (R : list Z) (g : Grid) (v : list Z) : list Z :=
  map (fun i => refPos1 (nth i R 0) (nth i (gLevel g) 0) (nth i (gBnd g) 0) (nth i (gLower g) 0) (nth i v 0))
      (seq 0 (length (gLevel g))).

Lemma map_sorted : forall (f : Z -> Z) l, (forall x y, x < y -> f x < f y) ->
  StronglySorted Z.lt l -> StronglySorted Z.lt (map f l).
Proof.
  intros f l Hf. induction 1; simpl; constructor; auto.
  apply Forall_forall. intros y Hy. apply in_map_iff in Hy as [x [<- Hx]].
  rewrite Forall_forall in H0. auto.
Qed.

Lemma refPos1_mono : forall R L b lo x y, L <= R -> x < y -> refPos1 R L b lo x < refPos1 R L b lo y.
Proof.
  intros. unfold refPos1, gridPos. pose proof (pow2_pos (R - L) ltac:(lia)). destruct (b =? 0); nia.
Qed.


Lemma lev_scale : forall L R p, 0 <= L <= R -> 0 <= p <= 2 ^ L -> lev R (p * 2 ^ (R - L)) = lev L p.
Proof.
  intros L R p HL Hp. unfold lev. pose proof (pow2_pos (R - L) ltac:(lia)) as P.
  destruct (Z.eqb_spec p 0) as [->|Hne]; [reflexivity|].
  destruct (Z.eqb_spec (p * 2 ^ (R - L)) 0); [nia|].
  destruct (ctz_spec p ltac:(lia)) as [H0 [m [Hm E]]].
  rewrite (ctz_unique (p * 2 ^ (R - L)) (ctz p + (R - L)) m); try lia; try nia.
  rewrite Z.pow_add_r by lia. rewrite E at 1. ring.
Qed.

Lemma downsample_bounds : forall R L b dec k, 1 <= L <= R -> 0 <= b <= 2 ->
  0 <= k < Z.of_nat (length dec) -> (forall i, (i < length dec)%nat -> 0 <= nth i dec 0 <= 2 ^ R + b - 1) ->
  let dec' := map (downsample1 R L b) dec in
  0 <= lo1 dec' k /\ up1 dec' (2 ^ L + b - 1) k <= 2 ^ L + b - 1.
Proof.
  intros R L b dec k HL Hb Hk HD dec'.
  assert (N : forall i, (i < length dec)%nat -> nth i dec' 0 = downsample1 R L b (nth i dec 0)).
  { intros. unfold dec'. rewrite (nth_indep _ 0 (downsample1 R L b 0)) by (rewrite map_length; auto).
    now rewrite map_nth. }
  pose proof (pow2_pos (R - L) ltac:(lia)) as P. pose proof (pow2_pos L ltac:(lia)) as PL.
  assert (Hp : 2 ^ R = 2 ^ L * 2 ^ (R - L)) by (rewrite <- Z.pow_add_r by lia; f_equal; lia).
  assert (LD : length dec' = length dec) by apply map_length.
  split.
  - unfold lo1. rewrite N by lia. unfold downsample1. destruct (Z.gtb_spec b 0); [|lia].
    specialize (HD (Z.to_nat k) ltac:(lia)).
    assert (-1 < cdiv (nth (Z.to_nat k) dec 0) (2 ^ (R - L))); [|lia]. apply cdiv_lt; nia.
  - unfold up1. rewrite LD. destruct (Z.ltb_spec k (Z.of_nat (length dec) - 1)); [|lia].
    rewrite N by lia. specialize (HD (Z.to_nat (k + 1)) ltac:(lia)).
    set (f := if b =? 0 then 2 ^ R - 1 else (2 ^ L + b - 1) * 2 ^ (R - L)).
    apply (downsample1_le R L b _ (2 ^ L + b - 1) f); try lia.
    + unfold gridPos, f. destruct (Z.eqb_spec b 0); nia.
    + unfold f. destruct (Z.eqb_spec b 0); nia.
Qed.

(** 1d: positions of the points of level [l] inside the partition of process [k], independent of the grid level. *)
Lemma indices_refPos : forall R L b dec k l y,
  1 <= l <= L -> L <= R -> 0 <= b <= 2 ->
  0 <= k < Z.of_nat (length dec) -> (forall i, (i < length dec)%nat -> 0 <= nth i dec 0 <= 2 ^ R + b - 1) ->
  let dec' := map (downsample1 R L b) dec in
  (In y (map (refPos1 R L b (lo1 dec' k)) (indices1dLocal b L (lo1 dec' k) (up1 dec' (2 ^ L + b - 1) k) l)) <->
   exists f, gridPos b f = y /\ lo1 dec k <= f < up1 dec (2 ^ R + b - 1) k /\ 0 <= f < 2 ^ R + b - 1 /\ Z.max 1 (lev R y) = l).
Proof.
  intros R L b dec k l y Hl HR Hb Hk HD dec'.
  destruct (downsample_bounds R L b dec k ltac:(lia) Hb Hk HD) as [B1 B2]. fold dec' in B1, B2.
  pose proof (pow2_pos (R - L) ltac:(lia)) as P. pose proof (pow2_pos L ltac:(lia)) as PL.
  assert (Hp : 2 ^ R = 2 ^ L * 2 ^ (R - L)) by (rewrite <- Z.pow_add_r by lia; f_equal; lia).
  assert (NR : numDofNodal1 R b = Some (2 ^ R + b - 1)).
  { unfold numDofNodal1. destruct (Z.gtb_spec R 0); [auto|lia]. }
  assert (NL : numDofNodal1 L b = Some (2 ^ L + b - 1)).
  { unfold numDofNodal1. destruct (Z.gtb_spec L 0); [auto|lia]. }
  rewrite in_map_iff. split.
  - intros [x [<- Hx]]. apply indices_level in Hx as [Hx Hlv]; auto.
    assert (Hc0 : 0 <= lo1 dec' k + x) by lia.
    assert (Hc1 : lo1 dec' k <= lo1 dec' k + x < up1 dec' (2 ^ L + b - 1) k) by lia. set (c := lo1 dec' k + x) in *. unfold refPos1. fold c.
    set (f := if b =? 0 then gridPos b c * 2 ^ (R - L) - 1 else gridPos b c * 2 ^ (R - L)).
    assert (Ef : gridPos b f = gridPos b c * 2 ^ (R - L)).
    { unfold f. unfold gridPos at 1. destruct (Z.eqb_spec b 0); lia. }
    exists f. split; auto.
    assert (O : lo1 dec k <= f < up1 dec (2 ^ R + b - 1) k).
    { apply (downsample_owner1 R L b dec (2 ^ R + b - 1) (2 ^ L + b - 1) c f k); auto; lia. }
    split; auto. split.
    + pose proof (same_point_inside R L b c f ltac:(lia) ltac:(lia) Ef Hb) as S.
      split; [|apply S; lia]. clear -Ef Hc0 P. clearbody f c. unfold gridPos in Ef. destruct (b =? 0); nia.
    + rewrite lev_scale; [|lia|apply numDof_range; auto; lia]. rewrite <- getLevel_lev. auto.
  - intros [f [Ey [O [If Hlv]]]].
    pose proof (numDof_range b R f Hb If) as Rf. rewrite Ey in Rf.
    assert (D : (2 ^ (R - L) | y)).
    { assert (D1 : (2 ^ (R - l) | y)) by (apply lev_divides; auto; lia).
      apply Z.divide_trans with (2 ^ (R - l)); auto. exists (2 ^ (L - l)).
      rewrite <- Z.pow_add_r by lia. f_equal. lia. }
    destruct D as [q Hq].
    set (c := if b =? 0 then q - 1 else q).
    assert (Ec : gridPos b c = q) by (unfold gridPos, c; destruct (b =? 0); lia).
    assert (Hq0 : 0 <= q <= 2 ^ L) by nia.
    assert (Hc : 0 <= c).
    { unfold c. unfold gridPos in Ey. destruct (Z.eqb_spec b 0); [|lia]. nia. }
    assert (Ef : gridPos b f = gridPos b c * 2 ^ (R - L)) by lia.
    pose proof (same_point_inside R L b c f ltac:(lia) Hc Ef Hb) as S.
    assert (O' : lo1 dec' k <= c < up1 dec' (2 ^ L + b - 1) k).
    { apply (downsample_owner1 R L b dec (2 ^ R + b - 1) (2 ^ L + b - 1) c f k); auto; lia. }
    exists (c - lo1 dec' k). split.
    + unfold refPos1. replace (lo1 dec' k + (c - lo1 dec' k)) with c by lia. lia.
    + apply indices_level; auto. split; [lia|].
      replace (lo1 dec' k + (c - lo1 dec' k)) with c by lia.
      rewrite getLevel_lev, Ec. rewrite <- (lev_scale L R q) by lia. rewrite <- Hq. auto.
Qed.

Lemma indices_refPos_eq : forall R L1 L2 b dec k l,
  1 <= l -> l <= L1 <= R -> l <= L2 <= R -> 0 <= b <= 2 ->
  0 <= k < Z.of_nat (length dec) -> (forall i, (i < length dec)%nat -> 0 <= nth i dec 0 <= 2 ^ R + b - 1) ->
  let d1 := map (downsample1 R L1 b) dec in let d2 := map (downsample1 R L2 b) dec in
  map (refPos1 R L1 b (lo1 d1 k)) (indices1dLocal b L1 (lo1 d1 k) (up1 d1 (2 ^ L1 + b - 1) k) l)
  = map (refPos1 R L2 b (lo1 d2 k)) (indices1dLocal b L2 (lo1 d2 k) (up1 d2 (2 ^ L2 + b - 1) k) l).
Proof.
  intros R L1 L2 b dec k l Hl H1 H2 Hb Hk HD d1 d2. apply sorted_ext.
  - apply map_sorted; [|apply indices_sorted; lia]. intros; apply refPos1_mono; lia.
  - apply map_sorted; [|apply indices_sorted; lia]. intros; apply refPos1_mono; lia.
  - intros y. unfold d1, d2. rewrite !indices_refPos by (auto; lia). reflexivity.
Qed.

(** A function applied per component, over the product. *)
Lemma cart_map2 : forall (fs : list (Z -> Z)) ls, length fs = length ls ->
  cart (map2 (fun f l => map f l) fs ls) = map (fun v => map2 (fun f x => f x) fs v) (cart ls).
Proof.
  induction fs as [|f fs IH]; intros [|l ls] H; simpl in H; try lia; [reflexivity|].
  cbn [map2 cart]. rewrite IH by lia. clear IH.
  rewrite !flat_map_concat_map, concat_map, !map_map. f_equal.
  apply map_ext. intros x. rewrite !map_map. reflexivity.
Qed.

Lemma map2_rev : forall A B C (f : A -> B -> C) a b, length a = length b -> map2 f (rev a) (rev b) = rev (map2 f a b).
Proof.
  assert (G : forall A B C (f : A -> B -> C) a b a' b', length a = length b ->
    map2 f (a ++ a') (b ++ b') = map2 f a b ++ map2 f a' b').
  { induction a; destruct b; simpl; intros; try lia; auto. f_equal. apply IHa. lia. }
  induction a as [|x a IH]; intros [|y b] H; simpl in *; try lia; auto.
  rewrite G by (rewrite !rev_length; lia). rewrite IH by lia. reflexivity.
Qed.

Definition refFuns (R : list Z) (g : Grid) : list (Z -> Z) :=
  map (fun i => refPos1 (nth i R 0) (nth i (gLevel g) 0) (nth i (gBnd g) 0) (nth i (gLower g) 0))
      (seq 0 (length (gLevel g))).

Lemma refFuns_apply : forall R g v, length v = length (gLevel g) ->
  map2 (fun f x => f x) (refFuns R g) v = refPos R g v.
Proof.
  intros R g v H. unfold refFuns, refPos. rewrite <- H. clear H.
  assert (G : forall (F : nat -> Z -> Z) v s, map2 (fun f x => f x) (map F (seq s (length v))) v
     = map (fun i => F (s + i)%nat (nth i v 0)) (seq 0 (length v))).
  { induction v0 as [|x v0 IH]; intros s; simpl; auto. f_equal.
    - f_equal. lia.
    - rewrite IH. rewrite <- seq_shift, map_map. apply map_ext. intros i. f_equal. lia. }
  rewrite G. reflexivity.
Qed.

Lemma fgPoints_refPos : forall R g l, wfGrid g -> Forall2 (fun x y => 1 <= x <= y) l (gLevel g) ->
  map (fun k => refPos R g (unlin (gSizes g) k)) (fgPointsOfSubspace g l)
  = map (@rev Z) (cart (rev (map2 (fun f i => map f i) (refFuns R g)
                              (oneDIndices (gLevel g) (gBnd g) (gLower g) (gUpper g) l)))).
Proof.
  intros R g l W F. pose proof W as (H1 & H2 & H3 & H). pose proof (Forall2_length _ _ _ _ _ F) as Ll.
  rewrite fgPoints_cart; auto. 2: { clear -F. induction F; constructor; auto; lia. }
  assert (LF : length (refFuns R g) = length (gLevel g)) by (unfold refFuns; now rewrite map_length, seq_length).
  assert (LI : length (oneDIndices (gLevel g) (gBnd g) (gLower g) (gUpper g) l) = length (gLevel g))
    by (apply oneDIndices_length; lia).
  rewrite <- map2_rev by lia. rewrite cart_map2 by (rewrite !rev_length; lia).
  rewrite !map_map. apply map_ext_in. intros v Hv.
  pose proof (cart_elem_length _ _ Hv) as Lv. rewrite rev_length in Lv.
  apply In_cart_rev in Hv. apply cart_idx_In in Hv as [B _]; auto.
  rewrite unlin_lin by auto. rewrite <- refFuns_apply by (rewrite rev_length; lia).
  rewrite <- map2_rev by (rewrite rev_length; lia). now rewrite rev_involutive.
Qed.
