(** The maps of the combination parameters and the schemes used with fault tolerance (FaultModel). *)
From Verif Require Import Base TensorModel TensorProofs LevelSetsModel LevelSetsProofs CombiSchemeModel CombiSchemeProofs DofProofs.
From Verif Require Import QcTools HierMassProofs InterpProofs CombiStepProofs FaultModel FaultProofs.
From Coq Require Import QArith Qcanon.
Open Scope Z_scope.
Ltac Zify.zify_post_hook ::= idtac.

(** * Maps *)
Lemma keys_dassign : forall {A} k (v : A) d, keys (dassign k v d) = setInsert k (keys d).
Proof.
  intros A k v. induction d as [|[k' v'] d IH]; auto. cbn [dassign keys map setInsert fst].
  destruct (lexltb k k'); auto. destruct (lexltb k' k); auto. cbn [map fst]. f_equal. exact IH.
Qed.

Lemma wf_dassign : forall {A} n k (v : A) d, length k = n -> wfDict n d -> wfDict n (dassign k v d).
Proof.
  intros A n k v d L [W1 W2]. split; rewrite keys_dassign.
  - now apply (setInsert_sorted n).
  - apply Forall_forall. intros x Hx. apply (setInsert_In n) in Hx; auto. rewrite Forall_forall in W2. destruct Hx as [->|]; auto.
Qed.

Lemma keys_dassign_In : forall {A} n k (v : A) d x, length k = n -> wfDict n d -> (In x (keys (dassign k v d)) <-> x = k \/ In x (keys d)).
Proof. intros A n k v d x L [_ W]. rewrite keys_dassign. now apply (setInsert_In n). Qed.

Lemma dfind_dassign : forall {A} n k (v : A) d x, length k = n -> wfDict n d ->
  dfind x (dassign k v d) = if list_eq_dec Z.eq_dec x k then Some v else dfind x d.
Proof.
  intros A n k v d x L. induction d as [|[k' v'] d IH]; intros W; [reflexivity|]. cbn [dassign dfind].
  assert (W' : wfDict n d) by (destruct W as [W1 W2]; inv W1; inv W2; split; auto).
  assert (Lk : length k' = n) by (destruct W as [_ W2]; now inv W2).
  destruct (lexltb k k') eqn:E1; [reflexivity|]. destruct (lexltb k' k) eqn:E2.
  - cbn [dfind]. rewrite IH by auto. destruct (list_eq_dec Z.eq_dec x k') as [->|]; auto.
    destruct (list_eq_dec Z.eq_dec k' k) as [->|]; auto. apply lexltb_spec in E2; auto. exfalso. now apply (lexlt_irrefl k).
  - assert (k' = k).
    { destruct (lexlt_total k' k) as [H|[H|H]]; auto; [lia| |]; apply lexltb_spec in H; auto; congruence. }
    subst k'. cbn [dfind]. destruct (list_eq_dec Z.eq_dec x k); auto.
Qed.

Lemma zfind_zassign : forall {A} k (v : A) m x, zfind x (zassign k v m) = if x =? k then Some v else zfind x m.
Proof.
  intros A k v. induction m as [|[k' v'] m IH]; intros x; cbn [zassign zfind]; [reflexivity|].
  destruct (Z.eqb_spec k k').
  - subst k'. cbn [zfind]. now destruct (x =? k).
  - cbn [zfind]. rewrite IH. destruct (Z.eqb_spec x k'); auto. destruct (Z.eqb_spec x k); auto. lia.
Qed.

Lemma zassign_keys : forall {A} k (v : A) m, map fst (zassign k v m) = if in_dec Z.eq_dec k (map fst m) then map fst m else map fst m ++ [k].
Proof.
  intros A k v. induction m as [|[k' v'] m IH]; [reflexivity|]. cbn [zassign map fst]. destruct (Z.eqb_spec k k').
  - subst k'. cbn [map fst]. destruct (in_dec Z.eq_dec k (k :: map fst m)) as [|N]; auto. exfalso. apply N. now left.
  - cbn [map fst]. rewrite IH. destruct (in_dec Z.eq_dec k (map fst m)) as [I|I], (in_dec Z.eq_dec k (k' :: map fst m)) as [J|J]; auto.
    + exfalso. apply J. now right.
    + exfalso. destruct J; [congruence|auto].
Qed.

Definition wfParams (n : nat) (p : params) : Prop := wfDict n (pIds p) /\ wfDict n (pDict p).

Lemma setOne_wf : forall n p i l c, length l = n -> wfParams n p -> wfParams n (setOne p i l c).
Proof. intros n p i l c L [W1 W2]. split; now apply wf_dassign. Qed.

(** setLevelsCoeffs stores every triple under its ID and its level and leaves the other entries as they are. *)
Lemma setLevelsCoeffs_spec : forall n levels ids coeffs p, wfParams n p -> Forall (fun l => length l = n) levels ->
  length ids = length levels -> length coeffs = length levels -> NoDup ids -> NoDup levels ->
  let q := setLevelsCoeffs p ids levels coeffs in
  wfParams n q /\
  (forall j, (j < length levels)%nat ->
     zfind (nth j ids 0) (pLevels q) = Some (nth j levels []) /\ zfind (nth j ids 0) (pCoeffs q) = Some (nth j coeffs 0%Qc) /\
     dfind (nth j levels []) (pIds q) = Some (nth j ids 0) /\ dfind (nth j levels []) (pDict q) = Some (nth j coeffs 0%Qc)) /\
  (forall i, ~ In i ids -> zfind i (pLevels q) = zfind i (pLevels p) /\ zfind i (pCoeffs q) = zfind i (pCoeffs p)) /\
  (forall l, ~ In l levels -> dfind l (pIds q) = dfind l (pIds p) /\ dfind l (pDict q) = dfind l (pDict p)).
Proof.
  intros n. induction levels as [|l levels IH]; intros ids coeffs p W FL Li Lc NDi NDl.
  - destruct ids; [|discriminate]. cbn [setLevelsCoeffs]. split; auto. split; [intros j Hj; simpl in Hj; lia|]. auto.
  - destruct ids as [|i ids]; [discriminate|]. destruct coeffs as [|c coeffs]; [discriminate|].
    pose proof (Forall_inv FL) as Ll. apply Forall_inv_tail in FL. apply NoDup_cons_iff in NDi as [Ni NDi].
    apply NoDup_cons_iff in NDl as [Nl NDl]. cbn beta in Ll. subst n.
    cbn [setLevelsCoeffs]. set (p' := setOne p i l c).
    assert (W' : wfParams (length l) p') by (now apply setOne_wf).
    destruct (IH ids coeffs p' W' FL ltac:(simpl in Li; lia) ltac:(simpl in Lc; lia) NDi NDl) as (I1 & I2 & I3 & I4).
    cbv zeta. split; auto. split; [|split].
    + intros [|j] Hj; cbn [nth]; [|apply I2; simpl in Hj; lia].
      destruct (I3 i Ni) as [-> ->]. destruct (I4 l Nl) as [-> ->]. unfold p', setOne. cbn [pLevels pCoeffs pIds pDict].
      rewrite !zfind_zassign, Z.eqb_refl. destruct W as [W1 W2].
      rewrite !(dfind_dassign (length l)) by auto. destruct (list_eq_dec Z.eq_dec l l); [auto|congruence].
    + intros x Hx. destruct (I3 x) as [-> ->]; [intros Hi; apply Hx; now right|]. unfold p', setOne. cbn [pLevels pCoeffs].
      rewrite !zfind_zassign. destruct (Z.eqb_spec x i); auto. exfalso. apply Hx. now left.
    + intros x Hx. destruct (I4 x) as [-> ->]; [intros Hi; apply Hx; now right|]. unfold p', setOne. cbn [pIds pDict]. destruct W as [W1 W2].
      rewrite !(dfind_dassign (length l)) by auto. destruct (list_eq_dec Z.eq_dec x l); auto. exfalso. apply Hx. now left.
Qed.

Lemma setLevelsCoeffs_ids : forall levels ids coeffs p, length ids = length levels -> length coeffs = length levels ->
  NoDup (map fst (pLevels p) ++ ids) -> map fst (pLevels (setLevelsCoeffs p ids levels coeffs)) = map fst (pLevels p) ++ ids.
Proof.
  induction levels as [|l levels IH]; intros ids coeffs p Li Lc ND.
  - destruct ids; [|discriminate]. cbn [setLevelsCoeffs]. now rewrite app_nil_r.
  - destruct ids as [|i ids]; [discriminate|]. destruct coeffs as [|c coeffs]; [discriminate|]. cbn [setLevelsCoeffs].
    assert (E : map fst (pLevels (setOne p i l c)) = map fst (pLevels p) ++ [i]).
    { cbn [setOne pLevels]. rewrite zassign_keys. destruct (in_dec Z.eq_dec i (map fst (pLevels p))) as [I|]; auto.
      exfalso. apply NoDup_remove_2 in ND. apply ND. apply in_app_iff. now left. }
    rewrite IH; rewrite ?E; simpl in Li, Lc; try lia.
    + now rewrite <- app_assoc.
    + now rewrite <- app_assoc.
Qed.

Lemma noParams_wf : forall n, wfParams n noParams.
Proof. intros n. repeat split; constructor. Qed.

(** * Sorting and set difference *)
Lemma insertSorted_perm : forall x l, Permutation (insertSorted x l) (x :: l).
Proof.
  intros x. induction l as [|y l IH]; cbn [insertSorted]; auto. destruct (x <=? y); auto.
  rewrite IH. apply perm_swap.
Qed.
Lemma sortZ_perm : forall l, Permutation (sortZ l) l.
Proof. induction l as [|x l IH]; auto. cbn [sortZ fold_right]. fold (sortZ l). rewrite insertSorted_perm. now rewrite IH. Qed.
Lemma insertSorted_sorted : forall x l, StronglySorted Z.le l -> StronglySorted Z.le (insertSorted x l).
Proof.
  intros x. induction 1 as [|y l SS IH F]; cbn [insertSorted]; [repeat constructor|]. destruct (Z.leb_spec x y).
  - constructor; [constructor; auto|]. constructor; auto. rewrite Forall_forall in *. intros z Hz. specialize (F z Hz). lia.
  - constructor; auto. apply Forall_forall. intros z Hz. apply (Permutation_in _ (insertSorted_perm x l)) in Hz.
    destruct Hz as [<-|Hz]; [lia|]. rewrite Forall_forall in F. auto.
Qed.
Lemma sortZ_sorted : forall l, StronglySorted Z.le (sortZ l).
Proof. induction l as [|x l IH]; [constructor|]. cbn [sortZ fold_right]. now apply insertSorted_sorted. Qed.
Lemma sorted_NoDup_lt : forall l, StronglySorted Z.le l -> NoDup l -> StronglySorted Z.lt l.
Proof.
  induction 1 as [|x l SS IH F]; intros ND; constructor; inv ND; auto. rewrite Forall_forall in *. intros y Hy.
  specialize (F y Hy). assert (x <> y) by congruence. lia.
Qed.

Lemma setDiff_In : forall a b x, StronglySorted Z.lt a -> StronglySorted Z.lt b ->
  (In x (setDiff a b) <-> In x a /\ ~ In x b).
Proof.
  induction a as [|u a IH]; intros b x Sa Sb; [simpl; tauto|].
  induction Sb as [|v b Sb IHb Fb]; [simpl; tauto|]. inv Sa. rewrite Forall_forall in *.
  change (setDiff (u :: a) (v :: b))
    with (if u <? v then u :: setDiff a (v :: b) else if v <? u then setDiff (u :: a) b else setDiff a b).
  destruct (Z.ltb_spec u v); [|destruct (Z.ltb_spec v u)].
  - assert (Sv : StronglySorted Z.lt (v :: b)) by (constructor; auto; now apply Forall_forall).
    cbn [In]. rewrite (IH (v :: b) x H1 Sv). cbn [In]. split.
    + intros [<-|[A B]]; [|tauto]. split; auto. intros [E|Hb]; [lia|]. specialize (Fb u Hb). lia.
    + tauto.
  - rewrite IHb. cbn [In]. split.
    + intros [A B]. split; auto. intros [E|Hb]; auto. destruct A as [A|A]; [lia|]. specialize (H2 x A). lia.
    + tauto.
  - assert (u = v) by lia. subst v. rewrite (IH b x H1 Sb). cbn [In]. split.
    + intros [A B]. split; auto. intros [E|Hb]; auto. subst x. specialize (H2 u A). lia.
    + intros [[A|A] B]; [tauto|]. tauto.
Qed.
