(** Proofs about TensorModel.v. *)
From Verif Require Import Base TensorModel.

(** Mixed-radix value of a digit list and its inverse: the specification side. *)
Fixpoint lin (ext a : list Z) : Z :=
  match ext, a with e :: ext', x :: a' => x + e * lin ext' a' | _, _ => 0 end.

Fixpoint unlin (ext : list Z) (k : Z) : list Z :=
  match ext with [] => [] | e :: ext' => k mod e :: unlin ext' (k / e) end.

Definition inBox (ext a : list Z) : Prop := Forall2 (fun e x => 0 <= x < e) ext a.
Definition posExt (ext : list Z) : Prop := Forall (fun e => 0 < e) ext.

Lemma innerProduct_offsets : forall a ext acc s,
  innerProduct a (offsetsFrom acc ext) s = s + acc * lin ext a.
Proof.
  induction a as [|x a IH]; intros [|e ext] acc s; cbn [innerProduct offsetsFrom lin]; try ring.
  rewrite IH. ring.
Qed.

Lemma sequentialIndex_lin : forall ext a, sequentialIndex ext a = lin ext a.
Proof. intros. unfold sequentialIndex, localOffsets. rewrite innerProduct_offsets. ring. Qed.

Lemma inBox_pos : forall ext a, inBox ext a -> posExt ext.
Proof. induction 1; constructor; auto. lia. Qed.

Lemma lin_range : forall ext a, inBox ext a -> 0 <= lin ext a < zprod ext.
Proof.
  induction 1; simpl; [lia|]. nia.
Qed.

Lemma unlin_lin : forall ext a, inBox ext a -> unlin ext (lin ext a) = a.
Proof.
  induction 1 as [|e x ext a Hx Hb IH]; simpl; [reflexivity|].
  assert (Hm : (x + e * lin ext a) mod e = x).
  { rewrite (Z.mul_comm e), Z.mod_add by lia. apply Z.mod_small; lia. }
  assert (Hd : (x + e * lin ext a) / e = lin ext a).
  { rewrite (Z.mul_comm e), Z.div_add by lia. rewrite Z.div_small by lia. lia. }
  rewrite Hm, Hd, IH. reflexivity.
Qed.

Lemma lin_unlin : forall ext k, posExt ext -> 0 <= k < zprod ext -> lin ext (unlin ext k) = k.
Proof.
  induction ext as [|e ext IH]; intros k Hp Hk; simpl in *; [lia|].
  inversion Hp; subst. rewrite IH; auto.
  - rewrite Z.add_comm. symmetry. apply Z.div_mod. lia.
  - split; [apply Z.div_pos; lia|]. apply Z.div_lt_upper_bound; lia.
Qed.

Lemma unlin_inBox : forall ext k, posExt ext -> inBox ext (unlin ext k).
Proof.
  induction ext as [|e ext IH]; intros k Hp; simpl; constructor.
  - inversion Hp; subst. apply Z.mod_pos_bound. lia.
  - inversion Hp; subst. apply IH; auto.
Qed.

Lemma loop_snoc : forall l o k tail,
  getVectorIndexLoop k (l ++ [o]) tail
  = Z.quot (fold_left Z.rem l k) o :: getVectorIndexLoop k l tail.
Proof.
  induction l as [|a l IH]; intros o k tail; simpl; [reflexivity|].
  rewrite IH. reflexivity.
Qed.

Lemma remfold : forall ext acc k,
  0 < acc -> posExt ext -> 0 <= k < acc * zprod ext ->
  fold_left Z.rem (rev (offsetsFrom acc ext)) k = k mod acc.
Proof.
  induction ext as [|e ext IH]; intros acc k Ha Hp Hk.
  - simpl in *. symmetry. apply Z.mod_small. lia.
  - inversion Hp; subst. cbn [offsetsFrom rev]. rewrite fold_left_app. cbn [fold_left].
    simpl in Hk. rewrite IH; auto; try nia.
    rewrite Z.rem_mod_nonneg; try (apply Z.mod_pos_bound; nia); try lia.
    symmetry. apply Zmod_div_mod; try nia. exists e. ring.
Qed.

Lemma loop_unlin : forall ext acc k tail,
  0 < acc -> posExt ext -> 0 <= k < acc * zprod ext ->
  getVectorIndexLoop k (rev (offsetsFrom acc ext)) tail = unlin ext (k / acc) ++ tail.
Proof.
  induction ext as [|e ext IH]; intros acc k tail Ha Hp Hk; [reflexivity|].
  inversion Hp; subst. cbn [offsetsFrom rev]. simpl in Hk.
  rewrite loop_snoc, remfold, IH; auto; try nia.
  cbn [unlin app]. f_equal.
  - assert (Hb : 0 <= k mod (acc * e) < acc * e) by (apply Z.mod_pos_bound; nia).
    rewrite Z.quot_div_nonneg by lia.
    rewrite Z.rem_mul_r by lia.
    rewrite (Z.mul_comm acc ((k / acc) mod e)), Z.div_add by lia.
    rewrite Z.div_small by (apply Z.mod_pos_bound; lia). lia.
  - rewrite Z.div_div by lia. reflexivity.
Qed.

Lemma getVectorIndex_unlin : forall ext k,
  posExt ext -> 0 <= k < zprod ext -> getVectorIndex ext k = unlin ext k.
Proof.
  intros. unfold getVectorIndex, localOffsets.
  rewrite loop_unlin; auto; try lia. rewrite Z.div_1_r, app_nil_r. reflexivity.
Qed.

Lemma remDivChain_unlin : forall ext k,
  posExt ext -> 0 <= k -> remDivChain ext k = unlin ext k.
Proof.
  induction ext as [|e ext IH]; intros k Hp Hk; simpl; [reflexivity|].
  inversion Hp; subst.
  rewrite Z.rem_mod_nonneg, Z.quot_div_nonneg by lia. f_equal.
  apply IH; auto. apply Z.div_pos; lia.
Qed.

Lemma tensorSize_prod : forall ext, ext <> [] -> tensorSize ext = zprod ext.
Proof.
  intros ext H. unfold tensorSize. destruct ext as [|e ext]; [contradiction|].
  clear H. unfold zprod. symmetry. generalize (e :: ext). intro l.
  assert (G : forall l a, fold_left Z.mul l a = a * fold_right Z.mul 1 l).
  { induction l0; intros; simpl; [ring|]. rewrite IHl0. ring. }
  rewrite G. ring.
Qed.

Lemma lin_vadd : forall ext a b,
  length a = length ext -> length b = length ext ->
  lin ext (vadd a b) = lin ext a + lin ext b.
Proof.
  induction ext as [|e ext IH]; intros [|x a] [|y b] Ha Hb; simpl in *; try lia.
  rewrite IH by lia. ring.
Qed.

Lemma vadd_length : forall a b, length a = length b -> length (vadd a b) = length a.
Proof. induction a; destruct b; simpl; intros; try lia. rewrite IHa; lia. Qed.

Lemma vsub_length : forall a b, length a = length b -> length (vsub a b) = length a.
Proof. induction a; destruct b; simpl; intros; try lia. rewrite IHa; lia. Qed.

Lemma vall_spec : forall r a b, length a = length b ->
  (vall r a b = true <-> Forall2 (fun x y => r x y = true) a b).
Proof.
  induction a as [|x a IH]; intros [|y b] H; simpl in *; try lia.
  - split; auto.
  - rewrite andb_true_iff, IH by lia. split.
    + intros [H1 H2]. constructor; auto.
    + inversion 1; auto.
Qed.

(** A process' box is well formed if its bounds lie inside the global sizes and every extent is positive. *)
Definition wfLocal (g : LocalGrid) : Prop :=
  length (lgLower g) = length (lgGlobal g) /\ length (lgUpper g) = length (lgGlobal g) /\
  Forall2 (fun l u => 0 <= l < u) (lgLower g) (lgUpper g) /\
  Forall2 (fun u s => u <= s) (lgUpper g) (lgGlobal g).

Lemma wfLocal_sizes_pos : forall g, wfLocal g -> posExt (lgLocalSizes g).
Proof.
  intros [gl lo up] (_ & _ & H & _). unfold lgLocalSizes; simpl in *.
  induction H; simpl; constructor; auto. lia.
Qed.

Lemma wfLocal_global_pos : forall g, wfLocal g -> posExt (lgGlobal g).
Proof.
  intros [gl lo up] (_ & _ & H & H'). simpl in *. revert lo H.
  induction H' as [|u s up gl Hus H' IH]; intros lo H; constructor.
  - inversion H; subst. lia.
  - inversion H; subst. eapply IH; eauto.
Qed.

Lemma local_in_global : forall g v, wfLocal g -> inBox (lgLocalSizes g) v ->
  inBox (lgGlobal g) (vadd (lgLower g) v) /\ isGlobalIndexHere g (vadd (lgLower g) v) = true
  /\ vsub (vadd (lgLower g) v) (lgLower g) = v.
Proof.
  intros [gl lo up] v (H1 & H2 & H & H'). unfold lgLocalSizes, isGlobalIndexHere, vgeb, vltb; simpl in *.
  revert gl v H1 H2 H'. induction H as [|l u lo up Hlu H IH]; intros gl v H1 H2 H' Hv.
  - destruct gl; simpl in *; try lia. inversion Hv; subst. simpl. repeat split; constructor.
  - destruct gl as [|s gl]; simpl in *; try lia. inv H'. inversion Hv as [|e0 x0 ext0 v0 Hx0 Hv0]; subst. simpl.
    destruct (IH gl v0 ltac:(lia) ltac:(lia) ltac:(assumption) Hv0) as (A & B & C).
    apply andb_true_iff in B. destruct B as [B1 B2].
    rewrite B1, B2, C. repeat split.
    + constructor; auto. lia.
    + lia.
    + f_equal. lia.
Qed.

Lemma here_local : forall g v, wfLocal g -> length v = length (lgGlobal g) ->
  isGlobalIndexHere g v = true ->
  inBox (lgLocalSizes g) (vsub v (lgLower g)) /\ vadd (lgLower g) (vsub v (lgLower g)) = v.
Proof.
  intros [gl lo up] v (H1 & H2 & H & H'). unfold lgLocalSizes, isGlobalIndexHere, vgeb, vltb; simpl in *.
  revert gl v H1 H2 H'. induction H as [|l u lo up Hlu H IH]; intros gl v H1 H2 H' Hv Hh.
  - destruct gl; simpl in *; try lia. destruct v; simpl in *; try lia. split; constructor.
  - destruct gl as [|s gl]; simpl in *; try lia. destruct v as [|x v]; simpl in *; try lia.
    inv H'.
    destruct (IH gl v ltac:(lia) ltac:(lia) ltac:(assumption) ltac:(lia)) as (A & B).
    + apply andb_true_iff in Hh. destruct Hh as [Ha Hb].
      apply andb_true_iff in Ha. apply andb_true_iff in Hb. apply andb_true_iff; tauto.
    + rewrite B. split; [|f_equal; lia]. constructor; auto. lia.
Qed.

Lemma inBox_length : forall ext a, inBox ext a -> length a = length ext.
Proof. induction 1; simpl; auto. Qed.

Lemma globalOfLocalLinear_spec : forall g k, wfLocal g -> 0 <= k < zprod (lgLocalSizes g) ->
  getVectorIndex (lgGlobal g) (globalOfLocalLinear g k)
  = vadd (lgLower g) (getVectorIndex (lgLocalSizes g) k)
  /\ 0 <= globalOfLocalLinear g k < zprod (lgGlobal g).
Proof.
  intros g k Hw Hk. pose proof (wfLocal_sizes_pos g Hw) as Hp.
  unfold globalOfLocalLinear, firstGlobalIndex. rewrite !sequentialIndex_lin.
  rewrite (getVectorIndex_unlin (lgLocalSizes g)) by auto.
  pose proof (unlin_inBox (lgLocalSizes g) k Hp) as Hb.
  destruct (local_in_global g _ Hw Hb) as (A & _ & _).
  destruct Hw as (H1 & H2 & H3 & H4).
  assert (Hl : length (unlin (lgLocalSizes g) k) = length (lgGlobal g)).
  { rewrite (inBox_length _ _ Hb). unfold lgLocalSizes. rewrite vsub_length; lia. }
  rewrite <- lin_vadd by auto.
  split; [|apply lin_range; auto].
  rewrite getVectorIndex_unlin.
  - apply unlin_lin; auto.
  - eapply inBox_pos; eauto.
  - apply lin_range; auto.
Qed.
