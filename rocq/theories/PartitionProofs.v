(** Proofs about PartitionModel.v. *)
From Verif Require Import Base TensorModel TensorProofs PartitionModel.

Lemma Forall2_rev' : forall A B (R : A -> B -> Prop) a b, Forall2 R a b -> Forall2 R (rev a) (rev b).
Proof.
  induction 1; simpl; auto. apply Forall2_app; auto.
Qed.

Lemma zprod_rev : forall l, zprod (rev l) = zprod l.
Proof.
  induction l; simpl; auto. rewrite zprod_app, IHl. unfold zprod; cbn [fold_right]. ring.
Qed.

Lemma commSize_prod : forall l, commSize l = zprod l.
Proof.
  unfold commSize, zprod.
  assert (G : forall l a, fold_left Z.mul l a = a * fold_right Z.mul 1 l).
  { induction l; intros; cbn [fold_left fold_right]; [ring|]. rewrite IHl. ring. }
  intros. rewrite G. ring.
Qed.

(** Row-major rank of process coordinates: the MPI numbering. *)
Definition rowMajor (dims c : list Z) : Z := lin (rev dims) (rev c).

Lemma posExt_rev : forall dims, posExt dims -> posExt (rev dims).
Proof. intros. apply Forall_rev. auto. Qed.

Lemma cart_inBox : forall dims r, posExt dims -> 0 <= r -> inBox dims (mpiCartCoords dims r).
Proof.
  intros dims r Hp Hr. unfold mpiCartCoords. rewrite remDivChain_unlin by (auto using posExt_rev).
  pose proof (unlin_inBox (rev dims) r (posExt_rev _ Hp)) as H.
  apply Forall2_rev' in H. now rewrite rev_involutive in H.
Qed.

Lemma rowMajor_cart : forall dims r, posExt dims -> 0 <= r < zprod dims ->
  rowMajor dims (mpiCartCoords dims r) = r.
Proof.
  intros. unfold rowMajor, mpiCartCoords. rewrite rev_involutive, remDivChain_unlin by (auto using posExt_rev; lia).
  apply lin_unlin; auto using posExt_rev. now rewrite zprod_rev.
Qed.

Lemma cart_rowMajor : forall dims c, inBox dims c -> mpiCartCoords dims (rowMajor dims c) = c.
Proof.
  intros. unfold rowMajor, mpiCartCoords.
  apply Forall2_rev' in H as H'.
  rewrite remDivChain_unlin.
  - rewrite unlin_lin by auto. apply rev_involutive.
  - eapply inBox_pos; eauto.
  - apply lin_range in H'. lia.
Qed.

Lemma rowMajor_range : forall dims c, inBox dims c -> 0 <= rowMajor dims c < zprod dims.
Proof.
  intros. unfold rowMajor. rewrite <- (zprod_rev dims). apply lin_range. now apply Forall2_rev'.
Qed.

Lemma fold_upd_length : forall (f : Z -> nat) l acc,
  length (fold_left (fun pc i => upd pc (f i) i) l acc) = length acc.
Proof. induction l; simpl; intros; auto. rewrite IHl, upd_length. auto. Qed.

Lemma fold_upd_nth : forall (f : Z -> nat) l acc i,
  NoDup l -> (forall a b, In a l -> In b l -> f a = f b -> a = b) ->
  (forall a, In a l -> (f a < length acc)%nat) -> In i l ->
  nth (f i) (fold_left (fun pc i => upd pc (f i) i) l acc) 0 = i.
Proof.
  intros f l. 
  assert (K : forall l acc k, (forall a, In a l -> f a <> k) ->
     nth k (fold_left (fun pc i => upd pc (f i) i) l acc) 0 = nth k acc 0).
  { induction l0; simpl; intros; auto. rewrite IHl0 by auto. apply nth_upd_other. apply H. now left. }
  induction l as [|x l IH]; intros acc i Hnd Hinj Hlen Hin; [contradiction|].
  inv Hnd. cbn [fold_left]. destruct Hin as [->|Hin].
  - rewrite K.
    + apply nth_upd_same. apply Hlen. now left.
    + intros a Ha E. apply H1. assert (a = i) by (apply Hinj; simpl; auto). now subst.
  - apply IH; auto; simpl in *; auto.
    intros. rewrite upd_length. auto.
Qed.

Lemma fill_length : forall dims, length (fillPartitionCoords dims) = Z.to_nat (zprod dims).
Proof. intros. unfold fillPartitionCoords. rewrite fold_upd_length, repeat_length, commSize_prod. auto. Qed.

Lemma lin_inj : forall ext a b, inBox ext a -> inBox ext b -> lin ext a = lin ext b -> a = b.
Proof. intros. rewrite <- (unlin_lin ext a), <- (unlin_lin ext b) by auto. congruence. Qed.

Lemma fill_nth : forall dims r, posExt dims -> 0 <= r < zprod dims ->
  nth (Z.to_nat (lin dims (mpiCartCoords dims r))) (fillPartitionCoords dims) 0 = r.
Proof.
  intros dims r Hp Hr. unfold fillPartitionCoords. rewrite commSize_prod.
  rewrite <- sequentialIndex_lin.
  apply (fold_upd_nth (fun i => Z.to_nat (sequentialIndex dims (mpiCartCoords dims i)))).
  - apply zrange_NoDup.
  - intros a b Ha Hb E. rewrite zrange_In in Ha, Hb. rewrite !sequentialIndex_lin in E.
    pose proof (cart_inBox dims a Hp ltac:(lia)) as Ba. pose proof (cart_inBox dims b Hp ltac:(lia)) as Bb.
    pose proof (lin_range _ _ Ba). pose proof (lin_range _ _ Bb).
    assert (E2 : lin dims (mpiCartCoords dims a) = lin dims (mpiCartCoords dims b)) by lia.
    apply lin_inj in E2; auto.
    rewrite <- (rowMajor_cart dims a), <- (rowMajor_cart dims b) by auto. congruence.
  - intros a Ha. rewrite zrange_In in Ha. rewrite repeat_length, sequentialIndex_lin.
    pose proof (cart_inBox dims a Hp ltac:(lia)) as Ba. apply lin_range in Ba. lia.
  - now apply zrange_In.
Qed.

Lemma rankOfCoords_rowMajor : forall dims c, inBox dims c -> rankOfCoords dims c = rowMajor dims c.
Proof.
  intros dims c H. unfold rankOfCoords. rewrite sequentialIndex_lin.
  rewrite <- (cart_rowMajor dims c H) at 1. apply fill_nth.
  - eapply inBox_pos; eauto.
  - now apply rowMajor_range.
Qed.

Lemma findIndex_spec : forall l r i k, (k < length l)%nat -> nth k l 0 = r ->
  (forall j, (j < k)%nat -> nth j l 0 <> r) -> findIndex l r i = i + Z.of_nat k.
Proof.
  induction l as [|x l IH]; simpl; intros r i k Hk Hn Hf; [lia|].
  destruct k.
  - subst. rewrite Z.eqb_refl. lia.
  - destruct (Z.eqb_spec x r) as [->|Hne].
    + exfalso. apply (Hf 0%nat); [lia|reflexivity].
    + rewrite (IH r (i + 1) k); [lia|lia|auto|]. intros j Hj. apply (Hf (S j)). lia.
Qed.

Lemma coordsOfRank_cart : forall dims r, posExt dims -> 0 <= r < zprod dims ->
  coordsOfRank dims r = mpiCartCoords dims r.
Proof.
  intros dims r Hp Hr. unfold coordsOfRank.
  pose proof (cart_inBox dims r Hp ltac:(lia)) as B. pose proof (lin_range _ _ B) as L.
  rewrite (findIndex_spec _ r 0 (Z.to_nat (lin dims (mpiCartCoords dims r)))).
  - rewrite Z2Nat.id, Z.add_0_l by lia. rewrite getVectorIndex_unlin by auto. now apply unlin_lin.
  - rewrite fill_length. lia.
  - now apply fill_nth.
  - intros j Hj E.
    pose proof (unlin_inBox dims (Z.of_nat j) Hp) as Bj.
    assert (Hj2 : lin dims (unlin dims (Z.of_nat j)) = Z.of_nat j) by (apply lin_unlin; auto; lia).
    pose proof (rankOfCoords_rowMajor dims _ Bj) as R. unfold rankOfCoords in R.
    rewrite sequentialIndex_lin, Hj2, Nat2Z.id, E in R.
    rewrite R, cart_rowMajor, Hj2 in Hj by auto. lia.
Qed.

Lemma coordsOfRank_inBox : forall dims r, posExt dims -> 0 <= r < zprod dims -> inBox dims (coordsOfRank dims r).
Proof. intros. rewrite coordsOfRank_cart by auto. apply cart_inBox; auto; lia. Qed.

Lemma coords_rank : forall dims c, inBox dims c -> coordsOfRank dims (rankOfCoords dims c) = c.
Proof.
  intros. rewrite rankOfCoords_rowMajor by auto. rewrite coordsOfRank_cart.
  - now apply cart_rowMajor.
  - eapply inBox_pos; eauto.
  - now apply rowMajor_range.
Qed.

Lemma rank_coords : forall dims r, posExt dims -> 0 <= r < zprod dims ->
  rankOfCoords dims (coordsOfRank dims r) = r.
Proof.
  intros. rewrite coordsOfRank_cart by auto. rewrite rankOfCoords_rowMajor.
  - now apply rowMajor_cart.
  - apply cart_inBox; auto; lia.
Qed.

Lemma rank_range : forall dims c, inBox dims c -> 0 <= rankOfCoords dims c < zprod dims.
Proof. intros. rewrite rankOfCoords_rowMajor by auto. now apply rowMajor_range. Qed.

(** ** One-dimensional decompositions *)

(** A valid decomposition of [0..n-1]: starts at 0, strictly increasing, all starts inside. *)
Definition validDec1 (dec1 : list Z) (n : Z) : Prop :=
  nth 0 dec1 (-1) = 0 /\
  (forall i j, (i < j < length dec1)%nat -> nth i dec1 0 < nth j dec1 0) /\
  (forall i, (i < length dec1)%nat -> nth i dec1 0 < n).

Definition lo1 (dec1 : list Z) (c : Z) : Z := nth (Z.to_nat c) dec1 0.
Definition up1 (dec1 : list Z) (n c : Z) : Z :=
  if c <? Z.of_nat (length dec1) - 1 then nth (Z.to_nat (c + 1)) dec1 0 else n.

Lemma validDec1_nonempty : forall d n, validDec1 d n -> (0 < length d)%nat /\ nth 0 d 0 = 0.
Proof. intros d n [H _]. destruct d; simpl in *; [lia|]. split; [lia|auto]. Qed.

Lemma validDec1_mono : forall d n i j, validDec1 d n -> (i <= j < length d)%nat -> nth i d 0 <= nth j d 0.
Proof.
  intros d n i j (_ & H & _) Hij. destruct (Nat.eq_dec i j) as [->|]; [lia|].
  specialize (H i j ltac:(lia)). lia.
Qed.

Lemma validDec1_range : forall d n c, validDec1 d n -> 0 <= c < Z.of_nat (length d) ->
  0 <= lo1 d c < up1 d n c /\ up1 d n c <= n.
Proof.
  intros d n c V Hc. unfold lo1, up1.
  pose proof (validDec1_nonempty _ _ V) as [Hl H0].
  pose proof (validDec1_mono d n 0 (Z.to_nat c) V ltac:(lia)) as M. rewrite H0 in M.
  destruct V as (_ & S & U).
  destruct (Z.ltb_spec c (Z.of_nat (length d) - 1)).
  - specialize (S (Z.to_nat c) (Z.to_nat (c + 1)) ltac:(lia)). specialize (U (Z.to_nat (c + 1)) ltac:(lia)). lia.
  - specialize (U (Z.to_nat c) ltac:(lia)). lia.
Qed.

Lemma owner1_unique : forall d n c c' x, validDec1 d n ->
  0 <= c < Z.of_nat (length d) -> 0 <= c' < Z.of_nat (length d) ->
  lo1 d c <= x < up1 d n c -> lo1 d c' <= x < up1 d n c' -> c = c'.
Proof.
  assert (G : forall d n c c' x, validDec1 d n ->
    0 <= c < Z.of_nat (length d) -> 0 <= c' < Z.of_nat (length d) -> c < c' ->
    lo1 d c <= x < up1 d n c -> lo1 d c' <= x < up1 d n c' -> False).
  { intros d n c c' x V Hc Hc' Hlt H1 H2. unfold lo1, up1 in *.
    destruct (Z.ltb_spec c (Z.of_nat (length d) - 1)); [|lia].
    pose proof (validDec1_mono d n (Z.to_nat (c + 1)) (Z.to_nat c') V ltac:(lia)). lia. }
  intros d n c c' x V Hc Hc' H1 H2.
  destruct (Z.lt_trichotomy c c') as [L|[E|L]]; auto; exfalso.
  - eapply (G d n c c'); eauto.
  - eapply (G d n c' c); eauto.
Qed.

Lemma partitionCoord1d_spec : forall d n x, validDec1 d n -> 0 <= x < n ->
  0 <= partitionCoord1d d x < Z.of_nat (length d) /\
  lo1 d (partitionCoord1d d x) <= x < up1 d n (partitionCoord1d d x).
Proof.
  intros d n x V Hx. unfold partitionCoord1d.
  pose proof (validDec1_nonempty _ _ V) as [Hl H0].
  assert (G : forall k, (k <= length d)%nat -> (0 < k)%nat ->
    let r := fold_left (fun acc i => if nth i d 0 <=? x then Z.of_nat i else acc) (seq 0 k) (-1) in
    0 <= r < Z.of_nat k /\ nth (Z.to_nat r) d 0 <= x /\
    (forall j, (Z.to_nat r < j < k)%nat -> x < nth j d 0)).
  { induction k as [|k IH]; intros Hk Hp; [lia|].
    rewrite seq_S, fold_left_app. cbn [fold_left plus].
    destruct k as [|k].
    - simpl. rewrite H0. destruct (Z.leb_spec 0 x); [|lia]. simpl. rewrite H0. repeat split; try lia.
    - specialize (IH ltac:(lia) ltac:(lia)). cbv zeta in *.
      set (r := fold_left _ (seq 0 (S k)) (-1)) in *.
      destruct IH as (I1 & I2 & I3).
      destruct (Z.leb_spec (nth (S k) d 0) x).
      + rewrite Nat2Z.id. repeat split; try lia.
      + repeat split; try lia. intros j Hj. destruct (Nat.eq_dec j (S k)) as [->|]; [lia|]. apply I3. lia. }
  specialize (G (length d) ltac:(lia) Hl). cbv zeta in G.
  set (r := fold_left _ _ _) in *. destruct G as (G1 & G2 & G3).
  split; [lia|]. unfold lo1, up1. split; [lia|].
  destruct (Z.ltb_spec r (Z.of_nat (length d) - 1)); [|lia].
  apply G3. lia.
Qed.

Lemma lowerBoundPos_spec : forall l x,
  0 <= lowerBoundPos l x <= Z.of_nat (length l) /\
  (forall j, (j < Z.to_nat (lowerBoundPos l x))%nat -> nth j l 0 < x) /\
  (lowerBoundPos l x < Z.of_nat (length l) -> x <= nth (Z.to_nat (lowerBoundPos l x)) l 0).
Proof.
  induction l as [|y l IH]; intros x; cbn [lowerBoundPos length].
  - simpl. repeat split; try lia.
  - destruct (IH x) as (I1 & I2 & I3). destruct (Z.ltb_spec y x).
    + repeat split; try lia.
      * intros [|j] Hj; simpl; [lia|]. apply I2. lia.
      * intros L. replace (Z.to_nat (1 + lowerBoundPos l x)) with (S (Z.to_nat (lowerBoundPos l x))) by lia.
        simpl. apply I3. lia.
    + repeat split; try lia. simpl. lia.
Qed.

Lemma neighbor1dPartition_spec : forall d n x, validDec1 d n -> 0 <= x < n ->
  0 <= neighbor1dPartition d n x < Z.of_nat (length d) /\
  lo1 d (neighbor1dPartition d n x) <= x < up1 d n (neighbor1dPartition d n x).
Proof.
  intros d n x V Hx. unfold neighbor1dPartition.
  pose proof (validDec1_nonempty _ _ V) as [Hl H0].
  destruct (Z.ltb_spec x 0); [lia|]. destruct (Z.ltb_spec (n - 1) x); [lia|].
  destruct (lowerBoundPos_spec d (x + 1)) as (I1 & I2 & I3).
  set (p := lowerBoundPos d (x + 1)) in *.
  assert (Hp : 1 <= p).
  { destruct (Z.eq_dec p 0) as [E|]; [|lia]. rewrite E in I3. specialize (I3 ltac:(lia)). simpl in I3. lia. }
  split; [lia|]. unfold lo1, up1. split.
  - specialize (I2 (Z.to_nat (p - 1)) ltac:(lia)). lia.
  - destruct (Z.ltb_spec (p - 1) (Z.of_nat (length d) - 1)); [|lia].
    specialize (I3 ltac:(lia)). replace (p - 1 + 1) with p by lia. lia.
Qed.

(** ** The multi-dimensional decomposition *)

(** [dims.(i)] processes and [sizes.(i)] points in dimension [i], with a valid decomposition in each. *)
Definition validDec (dims sizes : list Z) (dec : list (list Z)) : Prop :=
  length dims = length dec /\ length sizes = length dec /\
  forall i, (i < length dec)%nat ->
    nth i dims 0 = Z.of_nat (length (nth i dec [])) /\ validDec1 (nth i dec []) (nth i sizes 0).

Lemma validDec_pos : forall dims sizes dec, validDec dims sizes dec -> posExt dims.
Proof.
  intros dims sizes dec (H1 & H2 & H). apply Forall_forall. intros x Hx.
  apply (In_nth _ _ 0) in Hx. destruct Hx as [i [Hi <-]].
  destruct (H i ltac:(lia)) as [E V]. apply validDec1_nonempty in V. lia.
Qed.

Lemma inBox_nth : forall ext a, inBox ext a <->
  (length ext = length a /\ forall i, (i < length ext)%nat -> 0 <= nth i a 0 < nth i ext 0).
Proof. intros. apply (Forall2_nth_iff _ _ (fun e x => 0 <= x < e) 0 0). Qed.

(** Only the lengths fit together; partitions may be empty. *)
Definition shapeDec (dims sizes : list Z) (dec : list (list Z)) : Prop :=
  length dims = length dec /\ length sizes = length dec /\
  forall i, (i < length dec)%nat ->
    nth i dims 0 = Z.of_nat (length (nth i dec [])) /\ 0 < nth i dims 0.

Lemma shapeDec_pos : forall dims sizes dec, shapeDec dims sizes dec -> posExt dims.
Proof.
  intros dims sizes dec (H1 & H2 & H). apply Forall_forall. intros x Hx.
  apply (In_nth _ _ 0) in Hx. destruct Hx as [i [Hi <-]].
  destruct (H i ltac:(lia)) as [E V]. lia.
Qed.

Lemma validDec_shape : forall dims sizes dec, validDec dims sizes dec -> shapeDec dims sizes dec.
Proof.
  intros dims sizes dec (H1 & H2 & H). split; [|split]; auto. intros i Hi. destruct (H i Hi) as [E V].
  split; auto. apply validDec1_nonempty in V. lia.
Qed.
#[global] Hint Resolve validDec_shape : core.

Lemma lowerBounds_nth : forall dims sizes dec r i, shapeDec dims sizes dec -> 0 <= r < zprod dims ->
  (i < length dims)%nat ->
  nth i (lowerBounds dims dec r) 0 = lo1 (nth i dec []) (nth i (coordsOfRank dims r) 0).
Proof.
  intros dims sizes dec r i V Hr Hi. unfold lowerBounds.
  pose proof (coordsOfRank_inBox dims r (shapeDec_pos _ _ _ V) Hr) as B. apply inBox_nth in B as [L B].
  destruct V as (H1 & H2 & _).
  rewrite (map2_nth _ _ _ _ _ _ i [] 0); try lia. reflexivity.
Qed.

Lemma lowerBounds_length : forall dims sizes dec r, shapeDec dims sizes dec -> 0 <= r < zprod dims ->
  length (lowerBounds dims dec r) = length dims.
Proof.
  intros dims sizes dec r V Hr. unfold lowerBounds.
  pose proof (coordsOfRank_inBox dims r (shapeDec_pos _ _ _ V) Hr) as B. apply inBox_nth in B as [L B].
  destruct V as (H1 & H2 & _). rewrite map2_length; lia.
Qed.

Lemma upperBounds_length : forall dims sizes dec r, length (upperBounds dims sizes dec r) = length dims.
Proof. intros. unfold upperBounds. rewrite map_length, seq_length. auto. Qed.

Lemma nth_map_seq : forall (f : nat -> Z) k i, (i < k)%nat -> nth i (map f (seq 0 k)) 0 = f i.
Proof.
  intros. rewrite (nth_indep _ 0 (f 0%nat)) by (rewrite map_length, seq_length; auto).
  rewrite map_nth, seq_nth; auto.
Qed.

Lemma upperBounds_nth : forall dims sizes dec r i, shapeDec dims sizes dec -> 0 <= r < zprod dims ->
  (i < length dims)%nat ->
  nth i (upperBounds dims sizes dec r) 0
  = up1 (nth i dec []) (nth i sizes 0) (nth i (coordsOfRank dims r) 0).
Proof.
  intros dims sizes dec r i V Hr Hi. unfold upperBounds. rewrite nth_map_seq by auto.
  pose proof (shapeDec_pos _ _ _ V) as P.
  pose proof (coordsOfRank_inBox dims r P Hr) as B. apply inBox_nth in B as [L B].
  set (c := coordsOfRank dims r) in *. unfold up1.
  pose proof V as (H1 & H2 & Hv). destruct (Hv i ltac:(lia)) as [E V1]. rewrite <- E.
  destruct (Z.ltb_spec (nth i c 0) (nth i dims 0 - 1)); [|reflexivity].
  assert (B' : inBox dims (upd c i (nth i c 0 + 1))).
  { apply inBox_nth. rewrite upd_length. split; [lia|]. intros j Hj.
    destruct (Nat.eq_dec i j) as [->|Hne].
    - rewrite nth_upd_same by lia. specialize (B j Hj). lia.
    - rewrite nth_upd_other by auto. apply B. lia. }
  rewrite (lowerBounds_nth dims sizes dec) by (auto using rank_range).
  rewrite coords_rank by auto. rewrite nth_upd_same by lia. reflexivity.
Qed.

(** A process owns a point if the point lies between its bounds in every dimension. *)
Definition owns (dims sizes : list Z) (dec : list (list Z)) (r : Z) (v : list Z) : Prop :=
  length v = length dims /\
  forall i, (i < length dims)%nat ->
    nth i (lowerBounds dims dec r) 0 <= nth i v 0 < nth i (upperBounds dims sizes dec r) 0.

Lemma partitionCoords_inBox : forall dims sizes dec v, validDec dims sizes dec -> inBox sizes v ->
  inBox dims (partitionCoords dec v) /\
  owns dims sizes dec (rankOfCoords dims (partitionCoords dec v)) v.
Proof.
  intros dims sizes dec v V B. pose proof V as (H1 & H2 & Hv). apply inBox_nth in B as [Lv B].
  assert (Hl : length (partitionCoords dec v) = length dims).
  { unfold partitionCoords. rewrite map2_length; lia. }
  assert (Hn : forall i, (i < length dims)%nat ->
            nth i (partitionCoords dec v) 0 = partitionCoord1d (nth i dec []) (nth i v 0)).
  { intros. apply map2_nth; lia. }
  assert (IB : inBox dims (partitionCoords dec v)).
  { apply inBox_nth. split; [lia|]. intros i Hi. rewrite Hn by auto.
    destruct (Hv i ltac:(lia)) as [E V1]. rewrite E.
    apply (partitionCoord1d_spec _ _ _ V1). apply B. lia. }
  split; auto. split; [lia|]. intros i Hi.
  pose proof (rank_range _ _ IB) as R.
  rewrite (lowerBounds_nth dims sizes), upperBounds_nth by auto. rewrite coords_rank by auto. rewrite Hn by auto.
  destruct (Hv i ltac:(lia)) as [E V1]. apply (partitionCoord1d_spec _ _ _ V1). apply B. lia.
Qed.

Lemma owner_unique : forall dims sizes dec v r r', validDec dims sizes dec ->
  0 <= r < zprod dims -> 0 <= r' < zprod dims ->
  owns dims sizes dec r v -> owns dims sizes dec r' v -> r = r'.
Proof.
  intros dims sizes dec v r r' V Hr Hr' [L O] [_ O'].
  pose proof (validDec_pos _ _ _ V) as P. pose proof V as (H1 & H2 & Hv).
  rewrite <- (rank_coords dims r), <- (rank_coords dims r') by auto. f_equal.
  pose proof (coordsOfRank_inBox dims r P Hr) as B. apply inBox_nth in B as [Lc B].
  pose proof (coordsOfRank_inBox dims r' P Hr') as B'. apply inBox_nth in B' as [Lc' B'].
  apply nth_ext_Z; [lia|]. intros i Hi.
  specialize (O i ltac:(lia)). specialize (O' i ltac:(lia)).
  rewrite (lowerBounds_nth dims sizes), upperBounds_nth in O by (auto; lia).
  rewrite (lowerBounds_nth dims sizes), upperBounds_nth in O' by (auto; lia).
  destruct (Hv i ltac:(lia)) as [E V1].
  specialize (B i ltac:(lia)). specialize (B' i ltac:(lia)). rewrite E in B, B'.
  eapply owner1_unique; eauto.
Qed.

Lemma owns_inside : forall dims sizes dec v r, validDec dims sizes dec -> 0 <= r < zprod dims ->
  owns dims sizes dec r v -> inBox sizes v.
Proof.
  intros dims sizes dec v r V Hr [L O].
  pose proof (validDec_pos _ _ _ V) as P. pose proof V as (H1 & H2 & Hv).
  pose proof (coordsOfRank_inBox dims r P Hr) as B. apply inBox_nth in B as [Lc B].
  apply inBox_nth. split; [lia|]. intros i Hi. specialize (O i ltac:(lia)). specialize (B i ltac:(lia)).
  rewrite (lowerBounds_nth dims sizes), upperBounds_nth in O by (auto; lia).
  destruct (Hv i ltac:(lia)) as [E V1]. rewrite E in B.
  pose proof (validDec1_range _ _ _ V1 B). lia.
Qed.

(** The points of process [r]. *)
Definition boxPoints (lo up : list Z) : list (list Z) := cart (map2 zrange lo up).

Lemma Forall2_map2_range : forall lo up v, length lo = length up ->
  (Forall2 (fun l x => In x l) (map2 zrange lo up) v <->
   length v = length lo /\ forall i, (i < length lo)%nat -> nth i lo 0 <= nth i v 0 < nth i up 0).
Proof.
  intros lo up v Hl. rewrite (Forall2_nth_iff _ _ _ [] 0). rewrite map2_length by auto.
  split; intros [H1 H2]; split; auto; try lia; intros i Hi; specialize (H2 i Hi).
  - rewrite (map2_nth _ _ _ _ _ _ i 0 0) in H2 by lia. now apply zrange_In in H2.
  - rewrite (map2_nth _ _ _ _ _ _ i 0 0) by lia. now apply zrange_In.
Qed.

Lemma boxPoints_In : forall lo up v, length lo = length up ->
  (In v (boxPoints lo up) <->
   length v = length lo /\ forall i, (i < length lo)%nat -> nth i lo 0 <= nth i v 0 < nth i up 0).
Proof. intros. unfold boxPoints. rewrite cart_In. now apply Forall2_map2_range. Qed.

Lemma boxPoints_NoDup : forall lo up, NoDup (boxPoints lo up).
Proof.
  intros. apply cart_NoDup. revert up. induction lo; destruct up; simpl; constructor; auto using zrange_NoDup.
Qed.

Lemma boxPoints_length : forall lo up, Forall2 (fun l u => l <= u) lo up ->
  Z.of_nat (length (boxPoints lo up)) = zprod (vsub up lo).
Proof.
  intros lo up H. unfold boxPoints. rewrite cart_length. induction H; simpl; auto.
  unfold zprod in *. cbn [fold_right]. rewrite IHForall2, zrange_length. f_equal. lia.
Qed.

Lemma boxPoints_sizes_In : forall sizes v,
  In v (boxPoints (repeat 0 (length sizes)) sizes) <-> inBox sizes v.
Proof.
  intros. rewrite boxPoints_In by now rewrite repeat_length. rewrite inBox_nth, repeat_length.
  split; intros [H1 H2]; split; auto; intros i Hi; specialize (H2 i Hi).
  - rewrite nth_repeat in H2. lia.
  - rewrite nth_repeat. lia.
Qed.

Lemma tiles : forall dims sizes dec, validDec dims sizes dec ->
  Permutation (flat_map (fun r => boxPoints (lowerBounds dims dec r) (upperBounds dims sizes dec r))
                        (zrange 0 (zprod dims)))
              (boxPoints (repeat 0 (length sizes)) sizes).
Proof.
  intros dims sizes dec V.
  assert (HI : forall r v, 0 <= r < zprod dims ->
     (In v (boxPoints (lowerBounds dims dec r) (upperBounds dims sizes dec r)) <-> owns dims sizes dec r v)).
  { intros r v Hr. rewrite boxPoints_In.
    - rewrite (lowerBounds_length dims sizes) by auto. reflexivity.
    - rewrite upperBounds_length. eapply lowerBounds_length; eauto. }
  apply NoDup_Permutation_ext.
  - apply NoDup_flat_map.
    + apply zrange_NoDup.
    + intros. apply boxPoints_NoDup.
    + intros a b x Ha Hb Hxa Hxb. rewrite zrange_In in Ha, Hb.
      apply HI in Hxa; auto. apply HI in Hxb; auto. eapply owner_unique; eauto.
  - apply boxPoints_NoDup.
  - intros v. rewrite in_flat_map, boxPoints_sizes_In. split.
    + intros [r [Hr Hv]]. rewrite zrange_In in Hr. apply HI in Hv; auto. eapply owns_inside; eauto.
    + intros B. destruct (partitionCoords_inBox dims sizes dec v V B) as [IB O].
      pose proof (rank_range _ _ IB). exists (rankOfCoords dims (partitionCoords dec v)).
      rewrite zrange_In. split; auto. now apply HI.
Qed.
