(** C52, C53, C65: gathering, mirroring a boundary, ghost layers. *)
From Verif Require Import Base TensorModel TensorProofs PartitionModel PartitionProofs DecompModel SubspaceModel SubspaceProofs Hier1dModel Hier1dProofs HierMassProofs DistPoleProofs
  HierNDProps HierLinProofs SparseGridProofs DofModel QcTools InterpModel InterpProofs LocalPartProofs InterpProps GridCommModel.
From Coq Require Import QArith Qcanon Permutation.
Open Scope Z_scope.
Ltac Zify.zify_post_hook ::= idtac.

(** ** Receiving into a subarray *)
Definition fits (sizes subsizes starts : list Z) : Prop :=
  subsizes <> [] /\ posExt subsizes /\ length subsizes = length sizes /\ length starts = length sizes /\
  forall i, (i < length sizes)%nat -> 0 <= nth i starts 0 /\ nth i starts 0 + nth i subsizes 0 <= nth i sizes 0.

Lemma fits_in : forall sizes subsizes starts w, fits sizes subsizes starts -> inBox subsizes w -> inBox sizes (vadd starts w) /\ vsub (vadd starts w) starts = w.
Proof.
  intros sizes subsizes starts w (HN & HP & L1 & L2 & H) HW. pose proof (inBox_length _ _ HW) as LW. split.
  - apply inBox_nth. rewrite vadd_length by lia. split; [lia|]. intros i Hi. apply inBox_nth in HW as [_ HW].
    specialize (HW i ltac:(lia)). specialize (H i Hi). rewrite vadd_nth by lia. lia.
  - apply vsub_vadd. lia.
Qed.

Lemma lin_inj : forall sizes a b, inBox sizes a -> inBox sizes b -> lin sizes a = lin sizes b -> a = b.
Proof. intros sizes a b Ha Hb E. rewrite <- (unlin_lin sizes a), <- (unlin_lin sizes b) by auto. now rewrite E. Qed.

Lemma receive_spec : forall sizes subsizes starts values buffer, fits sizes subsizes starts ->
  (forall w, inBox subsizes w -> receiveInto sizes subsizes starts values buffer (sequentialIndex sizes (vadd starts w)) = values (sequentialIndex subsizes w)) /\
  (forall k, (forall w, inBox subsizes w -> k <> sequentialIndex sizes (vadd starts w)) -> receiveInto sizes subsizes starts values buffer k = buffer k).
Proof.
  intros sizes subsizes starts values buffer HF. pose proof HF as (HN & HP & L1 & L2 & H). unfold receiveInto. rewrite tensorSize_prod by auto.
  assert (KEY : forall m, 0 <= m < zprod subsizes -> subarrayElement sizes subsizes starts m = lin sizes (vadd starts (unlin subsizes m)) /\ inBox subsizes (unlin subsizes m)).
  { intros m Hm. unfold subarrayElement. rewrite sequentialIndex_lin, getVectorIndex_unlin by auto. split; auto. now apply unlin_inBox. }
  assert (G : forall i v, In (i, v) (map (fun m => (subarrayElement sizes subsizes starts m, values m)) (zrange 0 (zprod subsizes))) ->
     v = (fun k => values (lin subsizes (vsub (unlin sizes k) starts))) i).
  { intros i v Hi. apply in_map_iff in Hi as (m & E & Hm). apply zrange_In in Hm. injection E as <- <-.
    destruct (KEY m Hm) as [-> IB]. destruct (fits_in _ _ _ _ HF IB) as [IB2 E2]. rewrite unlin_lin, E2, lin_unlin by auto. reflexivity. }
  split.
  - intros w Hw. destruct (fits_in _ _ _ _ HF Hw) as [IB2 E2]. rewrite !sequentialIndex_lin.
    destruct (fold_pairs _ _ buffer (lin sizes (vadd starts w)) G) as [A _]. rewrite A.
    + rewrite unlin_lin, E2 by auto. reflexivity.
    + exists (values (lin subsizes w)). apply in_map_iff. exists (lin subsizes w). pose proof (lin_range _ _ Hw) as R. split; [|now apply zrange_In].
      destruct (KEY _ R) as [-> _]. now rewrite unlin_lin.
  - intros k Hk. destruct (fold_pairs _ _ buffer k G) as [_ A]. apply A. intros [v Hv]. apply in_map_iff in Hv as (m & E & Hm). apply zrange_In in Hm.
    injection E as E _. destruct (KEY m Hm) as [E1 IB]. apply (Hk _ IB). rewrite sequentialIndex_lin. congruence.
Qed.

Lemma part_fits : forall procs sizes decs r, validDec procs sizes decs -> sizes <> [] -> 0 <= r < zprod procs ->
  let lo := lowerBounds procs decs r in fits sizes (vsub (upperBounds procs sizes decs r) lo) lo.
Proof.
  intros procs sizes decs r V HN Hr lo. pose proof (localPart_wf procs sizes decs r V Hr) as HW. pose proof HW as (W1 & W2 & W3 & W4).
  cbn [localPart lgLower lgUpper lgGlobal] in *. fold lo in W1, W3.
  assert (LS : length (vsub (upperBounds procs sizes decs r) lo) = length sizes) by (rewrite vsub_length; lia).
  split; [|split; [|split; [|split]]]; auto.
  - intros E. rewrite E in LS. destruct sizes; simpl in LS; congruence || lia.
  - exact (wfLocal_sizes_pos _ HW).
  - intros i Hi. apply (Forall2_nth_iff _ _ _ 0 0) in W3 as [_ W3]. apply (Forall2_nth_iff _ _ _ 0 0) in W4 as [_ W4].
    specialize (W3 i ltac:(lia)). specialize (W4 i ltac:(lia)). rewrite SubspaceProofs.vsub_nth by lia. lia.
Qed.

(** ** C52 *)
(** Whatever the order in which the parts arrive and whatever the full grid held before, afterwards it holds every value at its
    global linear index; nothing outside of the grid is written. *)
Theorem C52_gather : forall procs sizes decs order data F fg, validDec procs sizes decs -> sizes <> [] ->
  storesGrid procs sizes decs data F -> Permutation order (zrange 0 (zprod procs)) ->
  (forall v, inBox sizes v -> gatherFullGrid procs sizes decs order data fg (sequentialIndex sizes v) = F v) /\
  (forall k, k < 0 \/ zprod sizes <= k -> gatherFullGrid procs sizes decs order data fg k = fg k).
Proof.
  intros procs sizes decs order data F fg V HN HS HP.
  assert (RNG : forall r, In r order -> 0 <= r < zprod procs). { intros r Hr. apply (Permutation_in _ HP) in Hr. now apply zrange_In in Hr. }
  assert (ONE : forall r t, 0 <= r < zprod procs -> let lo := lowerBounds procs decs r in
      let t' := receiveInto sizes (vsub (upperBounds procs sizes decs r) lo) lo (data r) t in
      (forall v, owns procs sizes decs r v -> t' (sequentialIndex sizes v) = F v) /\
      (forall v, inBox sizes v -> ~ owns procs sizes decs r v -> t' (sequentialIndex sizes v) = t (sequentialIndex sizes v)) /\
      (forall k, k < 0 \/ zprod sizes <= k -> t' k = t k)).
  { intros r t Hr lo t'. pose proof (part_fits procs sizes decs r V HN Hr) as FT. fold lo in FT.
    destruct (receive_spec _ _ _ (data r) t FT) as [A B]. fold t' in A, B.
    pose proof (localPart_wf procs sizes decs r V Hr) as HW. pose proof HW as (W1 & W2 & W3 & W4). cbn [localPart lgLower lgUpper lgGlobal] in *.
    pose proof V as (V1 & V2 & _).
    assert (OW : forall v, owns procs sizes decs r v -> inBox (vsub (upperBounds procs sizes decs r) lo) (vsub v lo) /\ vadd lo (vsub v lo) = v).
    { intros v [L O]. apply (here_local (localPart procs sizes decs r)); auto. { cbn. lia. }
      unfold isGlobalIndexHere, vgeb, vltb. cbn [localPart lgLower lgUpper]. apply andb_true_iff. split; (apply vall_spec; [lia|]); apply (Forall2_nth_iff _ _ _ 0 0); (split; [lia|]);
        intros i Hi; specialize (O i ltac:(lia)); lia. }
    split; [|split].
    - intros v Hv. destruct (OW v Hv) as [IB E]. rewrite <- E at 1. rewrite (A _ IB). unfold lo. apply HS; auto.
      apply boxPoints_In; [lia|]. destruct Hv as [L O]. split; [lia|]. intros i Hi. apply O. lia.
    - intros v Hv NO. apply B. intros w Hw E. apply NO. destruct (fits_in _ _ _ _ FT Hw) as [IB2 _]. rewrite !sequentialIndex_lin in E.
      apply lin_inj in E; auto. subst v. pose proof (inBox_length _ _ Hw) as LW. rewrite vsub_length in LW by (unfold lo; lia). unfold lo in *.
      split; [rewrite vadd_length; lia|]. intros i Hi. apply inBox_nth in Hw as [LW2 Hw]. rewrite vsub_length in Hw, LW2 by lia. specialize (Hw i ltac:(lia)). rewrite SubspaceProofs.vsub_nth in Hw by lia.
      rewrite vadd_nth by lia. lia.
    - intros k Hk. apply B. intros w Hw E. destruct (fits_in _ _ _ _ FT Hw) as [IB2 _]. rewrite sequentialIndex_lin in E. pose proof (lin_range _ _ IB2). lia. }
  unfold gatherFullGrid.
  assert (ALL : forall os t, (forall r, In r os -> 0 <= r < zprod procs) ->
     let t' := fold_left (fun t r => let lo := lowerBounds procs decs r in receiveInto sizes (vsub (upperBounds procs sizes decs r) lo) lo (data r) t) os t in
     (forall v, inBox sizes v -> (exists r, In r os /\ owns procs sizes decs r v) \/ t (sequentialIndex sizes v) = F v -> t' (sequentialIndex sizes v) = F v) /\
     (forall k, k < 0 \/ zprod sizes <= k -> t' k = t k)).
  { induction os as [|r os IH]; intros t HR; cbn [fold_left]; cbv zeta.
    - split; auto. intros v Hv [(r & [] & _)|E]; auto.
    - destruct (ONE r t (HR r (or_introl eq_refl))) as (O1 & O2 & O3). cbv zeta in O1, O2, O3.
      destruct (IH (receiveInto sizes (vsub (upperBounds procs sizes decs r) (lowerBounds procs decs r)) (lowerBounds procs decs r) (data r) t)) as [I1 I2]; [intros; apply HR; now right|].
      split.
      + intros v Hv HC. apply I1; auto. destruct HC as [(q & [<-|Hq] & OQ)|E].
        * right. now apply O1.
        * left. eauto.
        * assert (D : owns procs sizes decs r v \/ ~ owns procs sizes decs r v).
          { destruct (isGlobalIndexHere (localPart procs sizes decs r) v) eqn:EH.
            - left. pose proof (localPart_wf procs sizes decs r V (HR r (or_introl eq_refl))) as HW. pose proof HW as (W1 & W2 & _). cbn [localPart lgLower lgUpper lgGlobal] in *. pose proof V as (V1 & V2 & _).
              unfold isGlobalIndexHere, vgeb, vltb in EH. cbn [localPart lgLower lgUpper] in EH. apply andb_true_iff in EH as [E1 E2]. pose proof (inBox_length _ _ Hv).
              apply vall_spec in E1; [|lia]. apply vall_spec in E2; [|lia]. apply (Forall2_nth_iff _ _ _ 0 0) in E1 as [_ E1]. apply (Forall2_nth_iff _ _ _ 0 0) in E2 as [_ E2].
              split; [lia|]. intros i Hi. specialize (E1 i ltac:(lia)). specialize (E2 i ltac:(lia)). lia.
            - right. intros [L O]. pose proof (localPart_wf procs sizes decs r V (HR r (or_introl eq_refl))) as HW. pose proof HW as (W1 & W2 & _). cbn [localPart lgLower lgUpper lgGlobal] in *. pose proof V as (V1 & V2 & _).
              enough (isGlobalIndexHere (localPart procs sizes decs r) v = true) by congruence.
              unfold isGlobalIndexHere, vgeb, vltb. cbn [localPart lgLower lgUpper]. apply andb_true_iff. split; (apply vall_spec; [lia|]); apply (Forall2_nth_iff _ _ _ 0 0); (split; [lia|]);
                intros i Hi; specialize (O i ltac:(lia)); lia. }
          right. destruct D as [D|D]; [now apply O1|]. now rewrite O2.
      + intros k Hk. rewrite I2 by auto. now apply O3. }
  destruct (ALL order fg RNG) as [A B]. split; auto. intros v Hv. apply A; auto. left.
  destruct (partitionCoords_inBox procs sizes decs v V Hv) as [IB O]. exists (rankOfCoords procs (partitionCoords decs v)). split; auto.
  apply (Permutation_in _ (Permutation_sym HP)). apply zrange_In. now apply rank_range.
Qed.

(** ** Neighbours *)
Section Nb.
Context (procs sizes : list Z) (decs : list (list Z)) (V : validDec procs sizes decs) (d : nat) (Hd : (d < length sizes)%nat).
Notation dec := (nth d decs []).
Notation P := (nth d procs 0).
Notation N := (nth d sizes 0).

Lemma nb_lens : length procs = length sizes /\ length decs = length sizes.
Proof. destruct V as (V1 & V2 & _). lia. Qed.
Lemma nb_dec : P = Z.of_nat (length dec) /\ validDec1 dec N /\ 1 <= P.
Proof. pose proof nb_lens. destruct V as (_ & _ & H1). destruct (H1 d ltac:(lia)) as [E W]. pose proof (validDec1_nonempty _ _ W). split; [auto|]. split; [auto|lia]. Qed.

Lemma nb_bounds_len : forall r, 0 <= r < zprod procs ->
  length (loOf procs decs r) = length sizes /\ length (upOf procs sizes decs r) = length sizes /\ length (coordsOfRank procs r) = length sizes /\
  0 <= nth d (coordsOfRank procs r) 0 < P.
Proof.
  intros r Hr. pose proof nb_lens. unfold loOf, upOf. rewrite (lowerBounds_length procs sizes) by auto. rewrite upperBounds_length.
  pose proof (coordsOfRank_inBox procs r (validDec_pos _ _ _ V) Hr) as B. apply inBox_nth in B as [L B]. specialize (B d ltac:(lia)). lia.
Qed.

Lemma nb_bounds : forall r i, 0 <= r < zprod procs -> (i < length sizes)%nat ->
  nth i (loOf procs decs r) 0 = lo1 (nth i decs []) (nth i (coordsOfRank procs r) 0) /\
  nth i (upOf procs sizes decs r) 0 = up1 (nth i decs []) (nth i sizes 0) (nth i (coordsOfRank procs r) 0) /\
  0 <= nth i (loOf procs decs r) 0 < nth i (upOf procs sizes decs r) 0 /\ nth i (upOf procs sizes decs r) 0 <= nth i sizes 0.
Proof.
  intros r i Hr Hi. pose proof nb_lens. unfold loOf, upOf. rewrite (lowerBounds_nth procs sizes) by (auto; lia). rewrite upperBounds_nth by (auto; lia).
  split; [auto|]. split; [auto|]. pose proof (coordsOfRank_inBox procs r (validDec_pos _ _ _ V) Hr) as B. apply inBox_nth in B as [L B]. specialize (B i ltac:(lia)).
  destruct V as (_ & _ & H1). destruct (H1 i ltac:(lia)) as [E W]. apply validDec1_range; auto. lia.
Qed.

Lemma nb_spec : forall r p, 0 <= r < zprod procs -> 0 <= p < P -> let s := rankOfCoords procs (upd (coordsOfRank procs r) d p) in
  0 <= s < zprod procs /\ loOf procs decs s = upd (loOf procs decs r) d (lo1 dec p) /\ upOf procs sizes decs s = upd (upOf procs sizes decs r) d (up1 dec N p).
Proof.
  intros r p Hr Hp s. pose proof nb_lens as [LP LD]. destruct (nb_bounds_len r Hr) as (L1 & L2 & L3 & _).
  assert (IB : inBox procs (upd (coordsOfRank procs r) d p)). { apply upd_inBox; auto. apply coordsOfRank_inBox; auto. eapply validDec_pos; eauto. }
  assert (Hs : 0 <= s < zprod procs) by now apply rank_range. assert (CS : coordsOfRank procs s = upd (coordsOfRank procs r) d p) by now apply coords_rank.
  destruct (nb_bounds_len s Hs) as (M1 & M2 & _). split; auto.
  split; apply nth_ext_Z; try (rewrite upd_length; lia); intros j Hj; destruct (nb_bounds s j Hs ltac:(lia)) as (B1 & B2 & _); rewrite ?B1, ?B2, CS; clear B1 B2;
    (destruct (Nat.eq_dec j d) as [->|NE]; [rewrite !nth_upd_same by lia; auto|rewrite !nth_upd_other by auto]);
    destruct (nb_bounds r j Hr ltac:(lia)) as (B1 & B2 & _); congruence.
Qed.

(** The extents and starts of a layer. *)
Lemma up_layer : forall r, 0 <= r < zprod procs -> let ls := vsub (upOf procs sizes decs r) (loOf procs decs r) in
  upwardSubarray (loOf procs decs r) (upOf procs sizes decs r) d = (upd ls d 1, upd (repeat 0 (length sizes)) d (nth d ls 0 - 1)) /\
  downwardSubarray (loOf procs decs r) (upOf procs sizes decs r) d = (upd ls d 1, repeat 0 (length sizes)).
Proof.
  intros r Hr ls. destruct (nb_bounds_len r Hr) as (L1 & L2 & _). unfold upwardSubarray, downwardSubarray. cbv zeta. fold ls.
  assert (EL : nth d ls 0 = nth d (upOf procs sizes decs r) 0 - nth d (loOf procs decs r) 0) by (unfold ls; rewrite SubspaceProofs.vsub_nth by lia; auto).
  assert (LL : length ls = length sizes) by (unfold ls; rewrite vsub_length; lia).
  split; f_equal; apply nth_ext_Z; rewrite ?vsub_length, ?upd_length, ?repeat_length; try (rewrite ?upd_length; lia); intros j Hj; rewrite ?vsub_length, ?upd_length in Hj by (rewrite ?upd_length; lia);
    rewrite SubspaceProofs.vsub_nth by (rewrite ?upd_length; lia); (destruct (Nat.eq_dec j d) as [->|NE]; [rewrite ?nth_upd_same by (rewrite ?repeat_length; lia)|rewrite ?nth_upd_other, ?nth_repeat by auto]).
  - lia.
  - unfold ls. rewrite SubspaceProofs.vsub_nth by lia. lia.
  - lia.
  - lia.
  - lia.
  - unfold ls. rewrite SubspaceProofs.vsub_nth by lia. lia.
  - rewrite nth_repeat. lia.
  - lia.
Qed.

Lemma layer_fits : forall r x, 0 <= r < zprod procs -> let ls := vsub (upOf procs sizes decs r) (loOf procs decs r) in
  0 <= x < nth d ls 0 -> fits ls (upd ls d 1) (upd (repeat 0 (length sizes)) d x).
Proof.
  intros r x Hr ls Hx. destruct (nb_bounds_len r Hr) as (L1 & L2 & _).
  assert (LL : length ls = length sizes) by (unfold ls; rewrite vsub_length; lia).
  assert (PB : forall j, (j < length sizes)%nat -> 0 < nth j ls 0).
  { intros j Hj. unfold ls. rewrite SubspaceProofs.vsub_nth by lia. pose proof (nb_bounds r j Hr Hj). lia. }
  split; [|split; [|split; [|split]]].
  - intros E. assert (LE : length (upd ls d 1) = 0%nat) by now rewrite E. rewrite upd_length in LE. lia.
  - apply Forall_forall. intros y Hy. apply (In_nth _ _ 0) in Hy as (j & Hj & <-). rewrite upd_length in Hj.
    destruct (Nat.eq_dec j d) as [->|NE]; [rewrite nth_upd_same by lia; lia|rewrite nth_upd_other by auto]. apply PB. lia.
  - apply upd_length.
  - rewrite upd_length, repeat_length. lia.
  - intros j Hj. destruct (Nat.eq_dec j d) as [->|NE]; [rewrite !nth_upd_same by (rewrite ?repeat_length; lia); lia|rewrite !nth_upd_other, nth_repeat by auto; lia].
Qed.

(** The value packed for position [w] of a layer of rank [s]. *)
Lemma packed_value : forall data F s x w, storesGrid procs sizes decs data F -> 0 <= s < zprod procs -> let lo := loOf procs decs s in
  let ls := vsub (upOf procs sizes decs s) lo in 0 <= x < nth d ls 0 -> inBox (upd ls d 1) w ->
  packed procs sizes decs (upd ls d 1, upd (repeat 0 (length sizes)) d x) s (data s) (sequentialIndex (upd ls d 1) w) = F (upd (vadd lo w) d (nth d lo 0 + x)).
Proof.
  intros data F s x w HS Hs lo ls Hx Hw. destruct (nb_bounds_len s Hs) as (L1 & L2 & _).
  pose proof (layer_fits s x Hs Hx) as FT. fold lo ls in FT. pose proof FT as (F1 & F2 & F3 & F4 & F5). destruct (fits_in _ _ _ _ FT Hw) as [IB _].
  assert (LL : length ls = length sizes) by (unfold ls, lo; rewrite vsub_length; lia). pose proof (inBox_length _ _ Hw) as LW. rewrite upd_length in LW.
  unfold packed, subarrayElement. cbn [fst snd]. fold lo ls. rewrite sequentialIndex_lin, sequentialIndex_lin, getVectorIndex_unlin by (auto; now apply lin_range). rewrite unlin_lin by auto.
  set (v := upd (vadd lo w) d (nth d lo 0 + x)).
  assert (LV : length v = length sizes) by (unfold v; rewrite upd_length, vadd_length; unfold lo; lia).
  assert (EV : vadd (upd (repeat 0 (length sizes)) d x) w = vsub v lo).
  { apply nth_ext_Z. { rewrite vadd_length, vsub_length by (rewrite ?upd_length, ?repeat_length; unfold lo; lia). rewrite upd_length, repeat_length. lia. }
    intros j Hj. rewrite vadd_length in Hj by (rewrite upd_length, repeat_length; lia). rewrite upd_length, repeat_length in Hj.
    rewrite vadd_nth by (rewrite ?upd_length, ?repeat_length; lia). rewrite SubspaceProofs.vsub_nth by (unfold lo; lia). unfold v.
    destruct (Nat.eq_dec j d) as [->|NE].
    - rewrite !nth_upd_same by (rewrite ?vadd_length, ?repeat_length; unfold lo; lia). apply inBox_nth in Hw as [_ Hw]. rewrite upd_length in Hw. specialize (Hw d ltac:(lia)). rewrite nth_upd_same in Hw by lia. lia.
    - rewrite !nth_upd_other, nth_repeat, vadd_nth by (unfold lo; auto; lia). lia. }
  rewrite EV, <- sequentialIndex_lin. apply HS; auto. apply boxPoints_In; [unfold loOf, upOf in *; lia|]. split; [unfold loOf in *; lia|]. intros j Hj.
  apply inBox_nth in IB as [_ IB]. rewrite EV in IB. assert (Hj' : (j < length sizes)%nat) by (unfold loOf in *; lia). specialize (IB j ltac:(lia)).
  rewrite SubspaceProofs.vsub_nth in IB by (unfold lo; lia). unfold ls in IB. rewrite SubspaceProofs.vsub_nth in IB by (unfold lo; lia). unfold lo, loOf, upOf in IB. lia.
Qed.
End Nb.

Lemma layer_same : forall procs sizes decs d r p, validDec procs sizes decs -> (d < length sizes)%nat -> 0 <= r < zprod procs -> 0 <= p < nth d procs 0 ->
  let s := rankOfCoords procs (upd (coordsOfRank procs r) d p) in
  upd (vsub (upOf procs sizes decs s) (loOf procs decs s)) d 1 = upd (vsub (upOf procs sizes decs r) (loOf procs decs r)) d 1.
Proof.
  intros procs sizes decs d r p V Hd Hr Hp s. destruct (nb_spec procs sizes decs V d Hd r p Hr Hp) as (Hs & E1 & E2). fold s in Hs, E1, E2. rewrite E1, E2.
  destruct (nb_bounds_len procs sizes decs V d Hd r Hr) as (L1 & L2 & _).
  apply nth_ext_Z; rewrite !upd_length, !vsub_length by (rewrite ?upd_length; lia). { now rewrite upd_length. }
  intros j Hj. rewrite upd_length in Hj. destruct (Nat.eq_dec j d) as [->|NE].
  - rewrite !nth_upd_same by (rewrite vsub_length; rewrite ?upd_length; lia). auto.
  - rewrite !nth_upd_other by auto. rewrite !SubspaceProofs.vsub_nth by (rewrite ?upd_length; lia). rewrite !nth_upd_other by auto. auto.
Qed.

(** ** C53 *)
(** Afterwards the processes store the function that takes at the highest index in [d] the value of the lowest one, and is
    unchanged elsewhere; also with one process in [d]. *)
Theorem C53_mirror_boundary : forall procs sizes decs data F d, validDec procs sizes decs -> (d < length sizes)%nat ->
  storesGrid procs sizes decs data F ->
  storesGrid procs sizes decs (writeLowerToUpper procs sizes decs d data)
    (fun v => if nth d v 0 =? nth d sizes 0 - 1 then F (upd v d 0) else F v).
Proof.
  intros procs sizes decs data F d V Hd HS r v Hr Hv.
  destruct (nb_bounds_len procs sizes decs V d Hd r Hr) as (L1 & L2 & L3 & C). destruct (nb_dec procs sizes decs V d Hd) as (EP & V1 & P1).
  destruct (nb_bounds procs sizes decs V d Hd r d Hr Hd) as (B1 & B2 & B3 & B4). pose proof (HS r v Hr Hv) as OLD.
  change (lowerBounds procs decs r) with (loOf procs decs r) in *. change (upperBounds procs sizes decs r) with (upOf procs sizes decs r) in *.
  apply boxPoints_In in Hv as [LV BV]; [|lia].
  set (lo := loOf procs decs r) in *. set (up := upOf procs sizes decs r) in *. set (ls := vsub up lo) in *.
  assert (LL : length ls = length sizes) by (unfold ls; rewrite vsub_length; lia).
  assert (IBV : inBox ls (vsub v lo)).
  { apply inBox_nth. rewrite vsub_length by lia. split; [lia|]. intros j Hj. unfold ls. rewrite !SubspaceProofs.vsub_nth by lia. specialize (BV j ltac:(lia)). lia. }
  pose proof (BV d ltac:(lia)) as BVd.
  unfold writeLowerToUpper, cartShift, cartNeighbor. cbn [fst].
  replace (nth d (coordsOfRank procs r) 0 + - (nth d procs 0 - 1)) with (nth d (coordsOfRank procs r) 0 - (nth d procs 0 - 1)) by lia.
  destruct (Z.leb_spec 0 (nth d (coordsOfRank procs r) 0 - (nth d procs 0 - 1))) as [T|T]; cbn [andb].
  - assert (EC : nth d (coordsOfRank procs r) 0 = nth d procs 0 - 1) by lia. rewrite EC. replace (nth d procs 0 - 1 - (nth d procs 0 - 1)) with 0 by lia.
    destruct (Z.ltb_spec 0 (nth d procs 0)); [|lia]. clear H. set (s := rankOfCoords procs (upd (coordsOfRank procs r) d 0)).
    destruct (nb_spec procs sizes decs V d Hd r 0 Hr ltac:(lia)) as (Hs & E1 & E2). fold s in Hs, E1, E2.
    assert (UPN : nth d up 0 = nth d sizes 0). { rewrite B2, EC, EP. unfold up1. destruct (Z.ltb_spec (Z.of_nat (length (nth d decs [])) - 1) (Z.of_nat (length (nth d decs [])) - 1)); [lia|auto]. }
    destruct (up_layer procs sizes decs V d Hd r Hr) as [U _]. destruct (up_layer procs sizes decs V d Hd s Hs) as [_ D].
    fold lo up ls in U |- *. rewrite U. cbn [fst snd]. rewrite D.
    pose proof (layer_same procs sizes decs d r 0 V Hd Hr ltac:(lia)) as SAME. fold s in SAME. fold lo up ls in SAME.
    assert (DL : nth d ls 0 = nth d up 0 - nth d lo 0) by (unfold ls; rewrite SubspaceProofs.vsub_nth by lia; auto).
    pose proof (layer_fits procs sizes decs V d Hd r (nth d ls 0 - 1) Hr) as FT. fold lo up ls in FT. specialize (FT ltac:(lia)).
    match goal with |- receiveInto _ _ _ ?vals ?buf _ = _ => destruct (receive_spec _ _ _ vals buf FT) as [A B] end.
    destruct (Z.eqb_spec (nth d v 0) (nth d sizes 0 - 1)) as [EV|NV].
    + set (w := upd (vsub v lo) d 0).
      assert (HW : inBox (upd ls d 1) w).
      { apply inBox_nth. apply inBox_nth in IBV as [Q1 Q2]. unfold w. rewrite !upd_length. split; auto. intros j Hj.
        destruct (Nat.eq_dec j d) as [->|NE]; [rewrite !nth_upd_same by lia; lia|rewrite !nth_upd_other by auto]. apply Q2. lia. }
      assert (EW : vadd (upd (repeat 0 (length sizes)) d (nth d ls 0 - 1)) w = vsub v lo).
      { assert (LW : length w = length sizes) by (unfold w; rewrite upd_length, vsub_length; lia).
        apply nth_ext_Z; rewrite vadd_length by (rewrite upd_length, repeat_length; lia); rewrite upd_length, repeat_length. { rewrite vsub_length; lia. }
        intros j Hj. rewrite vadd_nth by (rewrite ?upd_length, ?repeat_length; lia). unfold w. destruct (Nat.eq_dec j d) as [->|NE].
        - rewrite !nth_upd_same by (rewrite ?vsub_length, ?repeat_length; lia). rewrite SubspaceProofs.vsub_nth by lia. lia.
        - rewrite !nth_upd_other, nth_repeat by auto. lia. }
      rewrite <- EW, (A _ HW). rewrite <- SAME.
      pose proof (packed_value procs sizes decs V d Hd data F s 0 w HS Hs) as PV. cbv zeta in PV.
      replace (upd (repeat 0 (length sizes)) d 0) with (repeat 0 (length sizes)) in PV.
      2:{ apply nth_ext_Z; rewrite ?upd_length; auto. intros j Hj. rewrite repeat_length in Hj. destruct (Nat.eq_dec j d) as [->|NE]; [rewrite nth_upd_same by (rewrite repeat_length; lia)|rewrite nth_upd_other by auto]; now rewrite nth_repeat. }
      rewrite PV.
      * f_equal. rewrite E1. fold lo. rewrite nth_upd_same by lia. assert (LW : length w = length sizes) by (unfold w; rewrite upd_length, vsub_length; lia).
        assert (Z0 : lo1 (nth d decs []) 0 = 0) by (unfold lo1; simpl; apply (validDec1_nonempty _ _ V1)).
        apply nth_ext_Z; rewrite !upd_length, vadd_length; rewrite ?upd_length; try lia. intros j Hj. destruct (Nat.eq_dec j d) as [->|NE].
        -- rewrite !nth_upd_same by (rewrite ?vadd_length; rewrite ?upd_length; lia). lia.
        -- rewrite !nth_upd_other by auto. rewrite vadd_nth by (rewrite ?upd_length; lia). unfold w. rewrite !nth_upd_other by auto. rewrite SubspaceProofs.vsub_nth by lia. lia.
      * destruct (nb_bounds procs sizes decs V d Hd s d Hs Hd) as (_ & _ & B3' & _). destruct (nb_bounds_len procs sizes decs V d Hd s Hs) as (L1' & L2' & _).
        rewrite SubspaceProofs.vsub_nth by lia. lia.
      * now rewrite SAME.
    + rewrite B; auto. intros w Hw E. rewrite !sequentialIndex_lin in E. destruct (fits_in _ _ _ _ FT Hw) as [IB2 _]. apply lin_inj in E; auto.
      apply (f_equal (fun l => nth d l 0)) in E. pose proof (inBox_length _ _ Hw) as LW. rewrite upd_length in LW.
      rewrite SubspaceProofs.vsub_nth, vadd_nth in E by (rewrite ?upd_length, ?repeat_length; lia). rewrite nth_upd_same in E by (rewrite repeat_length; lia).
      apply inBox_nth in Hw as [_ Hw]. rewrite upd_length in Hw. specialize (Hw d ltac:(lia)). rewrite nth_upd_same in Hw by lia. lia.
  - destruct (Z.eqb_spec (nth d v 0) (nth d sizes 0 - 1)) as [EV|NV]; auto. exfalso.
    unfold up1 in B2. destruct (Z.ltb_spec (nth d (coordsOfRank procs r) 0) (Z.of_nat (length (nth d decs [])) - 1)); [|lia].
    destruct V1 as (_ & _ & V3). specialize (V3 (Z.to_nat (nth d (coordsOfRank procs r) 0 + 1)) ltac:(lia)). lia.
Qed.

(** ** C65 *)
(** The received layer holds, for every position of the own box in the other dimensions, the value with index one below the
    own lower bound in [d]; in a periodic dimension, the highest index below the lowest one. Where nothing is below, it is empty. *)
Theorem C65_ghost_layer : forall procs sizes decs periodic data F d r, validDec procs sizes decs -> (d < length sizes)%nat ->
  storesGrid procs sizes decs data F -> 0 <= r < zprod procs ->
  let lo := lowerBounds procs decs r in
  let ls := vsub (upperBounds procs sizes decs r) lo in
  let '(extents, ghost) := ghostLayer procs sizes decs periodic d data r in
  if negb periodic && (nth d lo 0 =? 0) then Forall (fun e => e = 0) extents
  else extents = upd ls d 1 /\
       forall w, inBox extents w -> ghost (sequentialIndex extents w)
         = F (upd (vadd lo w) d (if nth d lo 0 =? 0 then nth d sizes 0 - 1 else nth d lo 0 - 1)).
Proof.
  intros procs sizes decs periodic data F d r V Hd HS Hr lo ls.
  destruct (nb_bounds_len procs sizes decs V d Hd r Hr) as (L1 & L2 & L3 & C). destruct (nb_dec procs sizes decs V d Hd) as (EP & V1 & P1).
  destruct (nb_bounds procs sizes decs V d Hd r d Hr Hd) as (B1 & B2 & B3 & B4). change (loOf procs decs r) with lo in *. change (upperBounds procs sizes decs r) with (upOf procs sizes decs r) in *.
  assert (LO0 : nth d lo 0 = 0 <-> nth d (coordsOfRank procs r) 0 = 0).
  { rewrite B1. pose proof (validDec1_nonempty _ _ V1) as [VL V0]. unfold lo1. split.
    - intros E. destruct (Z.eq_dec (nth d (coordsOfRank procs r) 0) 0) as [|NZ]; auto. destruct V1 as (_ & V2 & _).
      specialize (V2 0%nat (Z.to_nat (nth d (coordsOfRank procs r) 0)) ltac:(lia)). lia.
    - intros ->. exact V0. }
  assert (KEY : forall p, 0 <= p < nth d procs 0 -> let s := rankOfCoords procs (upd (coordsOfRank procs r) d p) in
     forall w, inBox (upd ls d 1) w ->
     packed procs sizes decs (upwardSubarray (loOf procs decs s) (upOf procs sizes decs s) d) s (data s) (sequentialIndex (upd ls d 1) w) = F (upd (vadd lo w) d (up1 (nth d decs []) (nth d sizes 0) p - 1))).
  { intros p Hp s w Hw. destruct (nb_spec procs sizes decs V d Hd r p Hr Hp) as (Hs & E1 & E2). fold s in Hs, E1, E2.
    destruct (up_layer procs sizes decs V d Hd s Hs) as [U _]. rewrite U. pose proof (layer_same procs sizes decs d r p V Hd Hr Hp) as SAME. fold s in SAME. change (loOf procs decs r) with lo in SAME. fold ls in SAME.
    destruct (nb_bounds procs sizes decs V d Hd s d Hs Hd) as (_ & _ & B3' & _). destruct (nb_bounds_len procs sizes decs V d Hd s Hs) as (L1' & L2' & _).
    assert (LW : length w = length sizes). { apply inBox_length in Hw. rewrite upd_length in Hw. unfold ls in Hw. rewrite vsub_length in Hw by lia. lia. }
    rewrite <- SAME. rewrite (packed_value procs sizes decs V d Hd data F s _ w HS Hs); [|rewrite SubspaceProofs.vsub_nth by lia; lia|now rewrite SAME].
    f_equal. rewrite SubspaceProofs.vsub_nth by lia. replace (nth d (loOf procs decs s) 0 + (nth d (upOf procs sizes decs s) 0 - nth d (loOf procs decs s) 0 - 1)) with (nth d (upOf procs sizes decs s) 0 - 1) by lia.
    rewrite E1, E2. change (loOf procs decs r) with lo. rewrite nth_upd_same by lia.
    apply nth_ext_Z; rewrite !upd_length, !vadd_length; rewrite ?upd_length; try lia. intros j Hj. destruct (Nat.eq_dec j d) as [->|NE].
    - rewrite !nth_upd_same by (rewrite ?vadd_length; rewrite ?upd_length; lia). auto.
    - rewrite !nth_upd_other by auto. rewrite !vadd_nth by (rewrite ?upd_length; lia). rewrite nth_upd_other by auto. auto. }
  unfold ghostLayer, cartShift, cartNeighbor. cbn [fst].
  change (loOf procs decs r) with lo. fold ls.
  assert (VAL : forall p, p = (nth d (coordsOfRank procs r) 0 - 1) mod nth d procs 0 ->
     0 <= p < nth d procs 0 /\ up1 (nth d decs []) (nth d sizes 0) p - 1 = (if nth d lo 0 =? 0 then nth d sizes 0 - 1 else nth d lo 0 - 1)).
  { intros p Ep. assert (Rp : 0 <= p < nth d procs 0) by (rewrite Ep; apply Z.mod_pos_bound; lia). split; auto.
    destruct (Z.eqb_spec (nth d lo 0) 0) as [Z0|NZ].
    - apply LO0 in Z0. rewrite Z0 in Ep. replace p with (nth d procs 0 - 1). 
      + unfold up1. destruct (Z.ltb_spec (nth d procs 0 - 1) (Z.of_nat (length (nth d decs [])) - 1)); lia.
      + rewrite Ep. apply (Z.mod_unique _ _ (-1)); lia.
    - assert (NC : nth d (coordsOfRank procs r) 0 <> 0) by (intros E; apply NZ, LO0, E). rewrite Z.mod_small in Ep by lia.
      rewrite B1. unfold up1, lo1. destruct (Z.ltb_spec p (Z.of_nat (length (nth d decs [])) - 1)); [|lia]. do 2 f_equal. lia. }
  change (nth d (coordsOfRank procs r) 0 + - (1)) with (nth d (coordsOfRank procs r) 0 - 1).
  destruct periodic; cbn [negb andb].
  - destruct (VAL _ eq_refl) as [Rp E]. split; auto. intros w Hw. rewrite (KEY _ Rp w Hw), E. reflexivity.
  - destruct (Z.eqb_spec (nth d lo 0) 0) as [Z0|NZ].
    + pose proof Z0 as Z1. apply LO0 in Z1. rewrite Z1. cbn [Z.leb andb Z.sub Z.add Z.opp Z.compare]. apply Forall_forall. intros x Hx. apply in_map_iff in Hx as (? & <- & _). auto.
    + assert (NC : nth d (coordsOfRank procs r) 0 <> 0) by (intros E; apply NZ, LO0, E).
      destruct (Z.leb_spec 0 (nth d (coordsOfRank procs r) 0 - 1)); [|lia]. destruct (Z.ltb_spec (nth d (coordsOfRank procs r) 0 - 1) (nth d procs 0)); [|lia]. cbn [andb].
      destruct (VAL (nth d (coordsOfRank procs r) 0 - 1)) as [Rp E]. { rewrite Z.mod_small; lia. }
      split; auto. intros w Hw. rewrite (KEY _ Rp w Hw), E. now destruct (Z.eqb_spec (nth d lo 0) 0).
Qed.

(** Both exchanges are matched: whoever receives from [s] is the one [s] sends to. *)
Theorem C65_matched : forall procs sizes decs periodic d disp r s, validDec procs sizes decs -> (d < length sizes)%nat ->
  0 <= r < zprod procs -> 0 <= s < zprod procs ->
  (fst (cartShift procs periodic r d disp) = Some s <-> snd (cartShift procs periodic s d disp) = Some r).
Proof.
  intros procs sizes decs periodic d disp r s V Hd Hr Hs. cbn [cartShift fst snd].
  assert (KEY : forall a b k, 0 <= a < zprod procs -> 0 <= b < zprod procs -> cartNeighbor procs periodic a d k = Some b -> cartNeighbor procs periodic b d (- k) = Some a).
  { intros a b k Ha Hb. unfold cartNeighbor. destruct (nb_dec procs sizes decs V d Hd) as (_ & _ & P1).
    destruct (nb_bounds_len procs sizes decs V d Hd a Ha) as (_ & _ & LA & CA).
    pose proof (coordsOfRank_inBox procs a (validDec_pos _ _ _ V) Ha) as IA.
    assert (BACK : forall y, 0 <= y < nth d procs 0 -> rankOfCoords procs (upd (coordsOfRank procs a) d y) = b ->
      nth d (coordsOfRank procs b) 0 = y /\ rankOfCoords procs (upd (coordsOfRank procs b) d (nth d (coordsOfRank procs a) 0)) = a).
    { intros y Hy E. assert (CB : coordsOfRank procs b = upd (coordsOfRank procs a) d y) by (rewrite <- E; apply coords_rank; now apply upd_inBox).
      rewrite CB. rewrite nth_upd_same by lia. split; auto. rewrite upd_upd, upd_same. apply rank_coords; auto. eapply validDec_pos; eauto. }
    destruct periodic.
    - intros E. injection E as E. destruct (BACK _ (Z.mod_pos_bound _ (nth d procs 0) ltac:(lia)) E) as [Ey E2]. rewrite Ey. f_equal. rewrite <- E2 at 2. do 2 f_equal.
      rewrite Zplus_mod_idemp_l. replace (nth d (coordsOfRank procs a) 0 + k + - k) with (nth d (coordsOfRank procs a) 0) by lia. now apply Z.mod_small.
    - destruct ((0 <=? nth d (coordsOfRank procs a) 0 + k) && (nth d (coordsOfRank procs a) 0 + k <? nth d procs 0)) eqn:T; [|discriminate].
      intros E. injection E as E. apply andb_true_iff in T as [T1 T2]. apply Z.leb_le in T1. apply Z.ltb_lt in T2. destruct (BACK _ (conj T1 T2) E) as [Ey E2]. rewrite Ey.
      replace (nth d (coordsOfRank procs a) 0 + k + - k) with (nth d (coordsOfRank procs a) 0) by lia. destruct (Z.leb_spec 0 (nth d (coordsOfRank procs a) 0)); [|lia].
      destruct (Z.ltb_spec (nth d (coordsOfRank procs a) 0) (nth d procs 0)); [|lia]. cbn [andb]. now f_equal. }
  split; intros E.
  - apply KEY in E; auto. now rewrite Z.opp_involutive in E.
  - now apply KEY.
Qed.

(** ** Examples: the 4 x 3 grid of C32_ex on two processes *)
Lemma exG_stores : storesGrid [2; 1] exSizes [[0; 3]; [0]] exIData exF.
Proof. apply storedData_stores; [apply exI_good|discriminate]. Qed.
Example C52_ex : validDec [2; 1] exSizes [[0; 3]; [0]] /\ Permutation [1; 0] (zrange 0 (zprod [2; 1])) /\
  map (fun k => this (gatherFullGrid [2; 1] exSizes [[0; 3]; [0]] [1; 0] exIData (fun _ => zq 99) k)) (zrange (-1) 13)
  = map (fun z => this (zq z)) [99; 0; 1; 2; 3; 10; 11; 12; 13; 20; 21; 22; 23; 99].
Proof. split; [apply exI_good|]. split; [apply perm_swap|vm_compute; reflexivity]. Qed.
(** Across the two processes in dimension 0, and within one process in dimension 1. *)
Example C53_ex : (0 < length exSizes)%nat /\
  map (fun k => this (writeLowerToUpper [2; 1] exSizes [[0; 3]; [0]] 0 exIData 1 k)) [0; 1; 2] = map (fun z => this (zq z)) [0; 10; 20] /\
  map (fun k => this (writeLowerToUpper [2; 1] exSizes [[0; 3]; [0]] 1 exIData 0 k)) (zrange 0 9) = map (fun z => this (zq z)) [0; 1; 2; 10; 11; 12; 0; 1; 2].
Proof. repeat split; vm_compute; reflexivity || lia. Qed.
Example C65_ex :
  (let '(e, g) := ghostLayer [2; 1] exSizes [[0; 3]; [0]] true 0 exIData 1 in (e, map (fun k => this (g k)) [0; 1; 2])) = ([1; 3], map (fun z => this (zq z)) [2; 12; 22]) /\
  (let '(e, g) := ghostLayer [2; 1] exSizes [[0; 3]; [0]] true 0 exIData 0 in (e, map (fun k => this (g k)) [0; 1; 2])) = ([1; 3], map (fun z => this (zq z)) [3; 13; 23]) /\
  fst (ghostLayer [2; 1] exSizes [[0; 3]; [0]] false 0 exIData 0) = [0; 0].
Proof. repeat split; vm_compute; reflexivity. Qed.

(** Process 0 of a periodic line of three gets from process 2. *)
Example C65_matched_ex : validDec [3] [7] [[0; 2; 5]] /\
  fst (cartShift [3] true 0 0 1) = Some 2 /\ snd (cartShift [3] true 2 0 1) = Some 0 /\ fst (cartShift [3] false 0 0 1) = None.
Proof.
  split; [|repeat split; vm_compute; reflexivity]. split; [reflexivity|]. split; [reflexivity|]. intros [|i] Hi; simpl in Hi; [|lia]. split; [reflexivity|]. split; [reflexivity|]. split.
  - intros [|[|[|i]]] [|[|[|j]]] H; simpl in *; lia.
  - intros [|[|[|i]]] H; simpl in *; lia.
Qed.

Print Assumptions C52_gather.
Print Assumptions C53_mirror_boundary.
Print Assumptions C65_ghost_layer.
Print Assumptions C65_matched.
