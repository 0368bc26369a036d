(** The parts of all processes tile the data section of a file. *)
From Verif Require Import Base TensorModel TensorProofs PartitionModel PartitionProofs DecompModel SubspaceModel SubspaceProofs Hier1dModel Hier1dProofs HierMassProofs DistPoleProofs
  HierNDProps HierLinProofs SparseGridProofs DofModel QcTools InterpModel InterpProofs LocalPartProofs InterpProps GridCommModel GridCommProps FileModel FileProps PlotModel.
From Coq Require Import QArith Qcanon Permutation.
Open Scope list_scope.
Open Scope Z_scope.
Ltac Zify.zify_post_hook ::= idtac.

(** ** One list of writes *)
Definition writeAllOf (esz off : Z) (ws : list (Z * Qc)) (f : pfile) : pfile :=
  fold_left (fun f w => writeBytes f (off + esz * fst w) esz (ByteOf (snd w))) ws f.

Lemma byte_there : forall f off n g p, off <= p < off + n -> fByte (writeBytes f off n g) p = g (p - off).
Proof. intros f off n g p H. cbn. destruct (Z.leb_spec off p); [|lia]. destruct (Z.ltb_spec p (off + n)); [|lia]. reflexivity. Qed.
Lemma byte_elsewhere : forall f off n g p, p < off \/ off + n <= p -> fByte (writeBytes f off n g) p = fByte f p.
Proof. intros f off n g p H. cbn. destruct (Z.leb_spec off p); cbn [andb]; auto. destruct (Z.ltb_spec p (off + n)); [lia|]. reflexivity. Qed.
Lemma len_write : forall f off n g, 0 < n -> fLen (writeBytes f off n g) = Z.max (fLen f) (off + n).
Proof. intros f off n g H. cbn. destruct (Z.ltb_spec 0 n); [|lia]. reflexivity. Qed.

Lemma all_before : forall esz off ws f p, 0 < esz -> (forall e v, In (e, v) ws -> 0 <= e) -> p < off -> fByte (writeAllOf esz off ws f) p = fByte f p.
Proof.
  intros esz off ws f p HE. unfold writeAllOf. revert f. induction ws as [|[e v] ws IH]; intros f H Hp; cbn [fold_left]; auto.
  rewrite IH by (auto; intros; eapply H; right; eauto). apply byte_elsewhere. cbn [fst]. pose proof (H e v (or_introl eq_refl)). left. nia.
Qed.

Lemma all_spec : forall esz off (g : Z -> Qc) ws f e k, 0 < esz -> 0 <= k < esz -> (forall i v, In (i, v) ws -> v = g i) ->
  ((exists v, In (e, v) ws) -> fByte (writeAllOf esz off ws f) (off + esz * e + k) = ByteOf (g e) k) /\
  (~ (exists v, In (e, v) ws) -> fByte (writeAllOf esz off ws f) (off + esz * e + k) = fByte f (off + esz * e + k)).
Proof.
  intros esz off g ws f e k HE Hk. unfold writeAllOf. revert f. induction ws as [|[i v] ws IH]; intros f H; cbn [fold_left fst snd].
  - split; [intros [v []]|auto].
  - destruct (IH (writeBytes f (off + esz * i) esz (ByteOf v))) as [A B]. { intros; apply H; now right. }
    assert (D : (exists v, In (e, v) ws) \/ ~ (exists v, In (e, v) ws)).
    { destruct (in_dec Z.eq_dec e (map fst ws)) as [I|I].
      - left. apply in_map_iff in I as ([e' w] & <- & I). eauto.
      - right. intros [w I2]. apply I. apply in_map_iff. now exists (e, w). }
    split.
    + intros [w [E|I]].
      * injection E as -> <-. destruct D as [D|D]; [now apply A|]. rewrite B by auto. rewrite byte_there by lia.
        rewrite (H e v (or_introl eq_refl)). f_equal. lia.
      * apply A. eauto.
    + intros N. assert (NI : i <> e) by (intros ->; apply N; exists v; now left). rewrite B by (intros [w I]; apply N; exists w; now right).
      apply byte_elsewhere. nia.
Qed.

Lemma all_len_ge : forall esz off ws f, 0 < esz -> fLen f <= fLen (writeAllOf esz off ws f) /\ (forall e v, In (e, v) ws -> off + esz * e + esz <= fLen (writeAllOf esz off ws f)).
Proof.
  intros esz off ws f HE. unfold writeAllOf. revert f. induction ws as [|[i v] ws IH]; intros f; cbn [fold_left fst snd].
  - split; [lia|intros e v []].
  - destruct (IH (writeBytes f (off + esz * i) esz (ByteOf v))) as [A B]. rewrite len_write in A by lia. split; [lia|].
    intros e w [E|I]; [injection E as -> ->; lia|eauto].
Qed.
Lemma all_len_le : forall esz off ws f b, 0 < esz -> fLen f <= b -> (forall e v, In (e, v) ws -> off + esz * e + esz <= b) -> fLen (writeAllOf esz off ws f) <= b.
Proof.
  intros esz off ws f b HE. unfold writeAllOf. revert f. induction ws as [|[i v] ws IH]; intros f H1 H2; cbn [fold_left fst snd]; auto.
  apply IH; [|intros; eapply H2; right; eauto]. rewrite len_write by lia. specialize (H2 i v (or_introl eq_refl)). lia.
Qed.

(** ** The writes of all processes *)
Definition partWrites (procs sizes : list Z) (decs : list (list Z)) (data : Z -> arr) (r : Z) : list (Z * Qc) :=
  let lo := lowerBounds procs decs r in let subsizes := vsub (upperBounds procs sizes decs r) lo in
  map (fun m => (subarrayElement sizes subsizes lo m, data r m)) (zrange 0 (toInt (tensorSize subsizes))).

Lemma parts_writes : forall esz off procs sizes decs order data f,
  writeParts esz off procs sizes decs order data f = writeAllOf esz off (flat_map (partWrites procs sizes decs data) order) f.
Proof.
  intros. unfold writeParts, writeAllOf. revert f. induction order as [|r order IH]; intros f; cbn [fold_left flat_map]; auto.
  rewrite fold_left_app. rewrite IH. f_equal. unfold partWrites, writeSubarray. cbv zeta.
  set (l := zrange 0 _). clearbody l. revert f. induction l as [|m l IHl]; intros f; cbn [fold_left map fst snd]; auto.
Qed.

(** No process has 2^31 points or more. *)
Definition smallParts (procs sizes : list Z) (decs : list (list Z)) : Prop :=
  forall r, 0 <= r < zprod procs -> zprod (vsub (upperBounds procs sizes decs r) (lowerBounds procs decs r)) < 2 ^ 31.

Section Parts.
Context (procs sizes : list Z) (decs : list (list Z)) (data : Z -> arr) (F : list Z -> Qc).
Context (V : validDec procs sizes decs) (HN : sizes <> []) (HS : storesGrid procs sizes decs data F) (SM : smallParts procs sizes decs).

Lemma count_exact : forall r, 0 <= r < zprod procs -> let lo := lowerBounds procs decs r in let sub := vsub (upperBounds procs sizes decs r) lo in
  toInt (tensorSize sub) = zprod sub /\ posExt sub /\ sub <> [].
Proof.
  intros r Hr lo sub. pose proof (part_fits procs sizes decs r V HN Hr) as (S1 & S2 & _). fold lo sub in S1, S2. split; auto.
  rewrite tensorSize_prod by auto. apply toInt_small. split; [|apply SM; auto].
  clear - S2. induction S2; cbn; [lia|]. unfold zprod in *. cbn [fold_right] in *. nia.
Qed.

Lemma writes_sound : forall r e v, 0 <= r < zprod procs -> In (e, v) (partWrites procs sizes decs data r) ->
  exists x, inBox sizes x /\ e = sequentialIndex sizes x /\ v = F x.
Proof.
  intros r e v Hr HI. pose proof (part_fits procs sizes decs r V HN Hr) as FT. destruct (count_exact r Hr) as (EC & SP & SN).
  unfold partWrites in HI. cbv zeta in HI, FT, EC, SP, SN. set (lo := lowerBounds procs decs r) in *. set (sub := vsub (upperBounds procs sizes decs r) lo) in *.
  rewrite EC in HI. apply in_map_iff in HI as (m & E & Hm). apply zrange_In in Hm. injection E as <- <-.
  pose proof (unlin_inBox sub m SP) as IB. destruct (fits_in _ _ _ _ FT IB) as [IB2 E2].
  exists (vadd lo (unlin sub m)). split; auto. unfold subarrayElement. rewrite getVectorIndex_unlin by auto. split; auto.
  assert (EM : m = sequentialIndex sub (vsub (vadd lo (unlin sub m)) lo)) by (rewrite E2, sequentialIndex_lin, lin_unlin by auto; reflexivity).
  rewrite EM at 1. unfold sub, lo. apply HS; auto. fold lo. fold sub.
  pose proof (localPart_wf procs sizes decs r V Hr) as HW. pose proof HW as (W1 & W2 & W3 & W4). cbn [localPart lgLower lgUpper lgGlobal] in *. fold lo in W1, W3.
  assert (LS : length sub = length lo) by (unfold sub; rewrite vsub_length; lia). pose proof (inBox_length _ _ IB) as LU.
  apply boxPoints_In; [fold lo; lia|]. fold lo. split; [rewrite vadd_length; lia|]. intros i Hi. apply inBox_nth in IB as [_ IB]. specialize (IB i ltac:(lia)).
  rewrite vadd_nth by lia. assert (ES : nth i sub 0 = nth i (upperBounds procs sizes decs r) 0 - nth i lo 0) by (unfold sub; apply SubspaceProofs.vsub_nth; lia). lia.
Qed.

Lemma writes_complete : forall x, inBox sizes x -> exists r, 0 <= r < zprod procs /\ In (sequentialIndex sizes x, F x) (partWrites procs sizes decs data r).
Proof.
  intros x Hx. destruct (partitionCoords_inBox procs sizes decs x V Hx) as [IB O].
  set (r := rankOfCoords procs (partitionCoords decs x)) in *. assert (Hr : 0 <= r < zprod procs) by (now apply rank_range).
  exists r. split; auto. pose proof (part_fits procs sizes decs r V HN Hr) as FT. destruct (count_exact r Hr) as (EC & SP & SN).
  pose proof (localPart_wf procs sizes decs r V Hr) as HW. pose proof HW as (W1 & W2 & W3 & W4). cbn [localPart lgLower lgUpper lgGlobal] in *.
  unfold partWrites. cbv zeta in FT, EC, SP, SN |- *. set (lo := lowerBounds procs decs r) in *. set (sub := vsub (upperBounds procs sizes decs r) lo) in *.
  destruct O as [L O]. pose proof (inBox_length _ _ Hx) as LX. pose proof V as (V1 & V2 & _).
  assert (IL : inBox sub (vsub x lo) /\ vadd lo (vsub x lo) = x).
  { apply (here_local (localPart procs sizes decs r)); auto. unfold isGlobalIndexHere, vgeb, vltb. cbn [localPart lgLower lgUpper]. apply andb_true_iff.
    fold lo. split; (apply vall_spec; [lia|]); apply (Forall2_nth_iff _ _ _ 0 0); (split; [lia|]); intros i Hi; specialize (O i ltac:(lia)); fold lo in O; lia. }
  destruct IL as [IL EX]. rewrite EC. apply in_map_iff. exists (lin sub (vsub x lo)). pose proof (lin_range _ _ IL) as R. split; [|now apply zrange_In].
  f_equal.
  - unfold subarrayElement. rewrite getVectorIndex_unlin, unlin_lin, EX by auto. reflexivity.
  - rewrite <- sequentialIndex_lin. apply HS; auto. apply boxPoints_In; [fold lo; lia|]. fold lo. split; [lia|]. intros i Hi. specialize (O i ltac:(lia)). fold lo in O. lia.
Qed.

Context (order : list Z) (HP : Permutation order (zrange 0 (zprod procs))).
Notation ws := (flat_map (partWrites procs sizes decs data) order).

Lemma order_ranks : forall r, In r order <-> 0 <= r < zprod procs.
Proof. intros r. rewrite <- zrange_In. split; apply Permutation_in; auto. now apply Permutation_sym. Qed.

Lemma ws_sound : forall e v, In (e, v) ws -> exists x, inBox sizes x /\ e = sequentialIndex sizes x /\ v = F x.
Proof. intros e v H. apply in_flat_map in H as (r & Hr & H). apply order_ranks in Hr. now apply (writes_sound r). Qed.
Lemma ws_complete : forall x, inBox sizes x -> In (sequentialIndex sizes x, F x) ws.
Proof. intros x Hx. destruct (writes_complete x Hx) as (r & Hr & H). apply in_flat_map. exists r. split; auto. now apply order_ranks. Qed.
Lemma ws_value : forall e v, In (e, v) ws -> v = F (unlin sizes e).
Proof. intros e v H. destruct (ws_sound _ _ H) as (x & Hx & -> & ->). rewrite sequentialIndex_lin, unlin_lin by auto. reflexivity. Qed.
Lemma ws_range : forall e v, In (e, v) ws -> 0 <= e < zprod sizes.
Proof. intros e v H. destruct (ws_sound _ _ H) as (x & Hx & -> & ->). rewrite sequentialIndex_lin. now apply lin_range. Qed.

(** The data section behind [off] bytes: the values of all points in the order of the global linear index; everything before it is
    unchanged, and what the file contained behind it, too. *)
Lemma parts_spec : forall esz off f, 0 < esz -> let f' := writeParts esz off procs sizes decs order data f in
  (forall x k, inBox sizes x -> 0 <= k < esz -> fByte f' (off + esz * sequentialIndex sizes x + k) = ByteOf (F x) k) /\
  (forall p, p < off \/ off + esz * zprod sizes <= p -> fByte f' p = fByte f p) /\
  fLen f' = Z.max (fLen f) (off + esz * zprod sizes).
Proof.
  intros esz off f HE f'. unfold f'. rewrite parts_writes.
  assert (HB : posExt sizes /\ 0 < zprod sizes).
  { assert (Hr : 0 <= 0 < zprod procs). { split; [lia|]. pose proof (validDec_pos _ _ _ V) as P. clear - P. induction P; cbn; [lia|]. unfold zprod in *; cbn [fold_right] in *; nia. }
    pose proof (localPart_wf procs sizes decs 0 V Hr) as (W1 & W2 & W3 & W4). cbn [localPart lgLower lgUpper lgGlobal] in *.
    assert (PS : posExt sizes).
    { unfold posExt. apply Forall_forall. intros n Hn. apply (In_nth _ _ 0) in Hn as (i & Hi & <-). apply (Forall2_nth_iff _ _ _ 0 0) in W3 as [_ W3]. apply (Forall2_nth_iff _ _ _ 0 0) in W4 as [_ W4].
      specialize (W3 i ltac:(lia)). specialize (W4 i ltac:(lia)). lia. }
    split; auto. clear - PS. induction PS; cbn; [lia|]. unfold zprod in *; cbn [fold_right] in *; nia. }
  destruct HB as [PS PZ].
  assert (SPEC : forall e k, 0 <= k < esz -> _) by (intros e k Hk; exact (all_spec esz off (fun e => F (unlin sizes e)) ws f e k HE Hk ws_value)).
  split; [|split].
  - intros x k Hx Hk. destruct (SPEC (sequentialIndex sizes x) k Hk) as [A _]. rewrite A by (exists (F x); now apply ws_complete).
    rewrite sequentialIndex_lin, unlin_lin by auto. reflexivity.
  - intros p Hp. destruct (Z_lt_ge_dec p off) as [L|G].
    + apply all_before; auto. intros e v H. now apply ws_range in H.
    + set (e := (p - off) / esz). set (k := (p - off) mod esz). pose proof (Z.div_mod (p - off) esz ltac:(lia)) as DM. fold e k in DM.
      pose proof (Z.mod_pos_bound (p - off) esz HE) as HK. fold k in HK. replace p with (off + esz * e + k) by lia.
      destruct (SPEC e k HK) as [_ B]. apply B. intros [v H]. apply ws_range in H. nia.
  - apply Z.le_antisymm.
    + apply all_len_le; auto; [lia|]. intros e v H. apply ws_range in H. nia.
    + destruct (all_len_ge esz off ws f HE) as [A B]. set (x := unlin sizes (zprod sizes - 1)).
      assert (Hx : inBox sizes x) by (now apply unlin_inBox). specialize (B _ _ (ws_complete x Hx)). rewrite sequentialIndex_lin in B. unfold x in B. rewrite lin_unlin in B by (auto; lia). nia.
Qed.
End Parts.
