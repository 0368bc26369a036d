(** Proofs about LevelSetsModel.v. *)
From Verif Require Import Base LevelSetsModel.

#[global] Arguments zsum : simpl never.
Lemma zsum_nil : zsum [] = 0.
Proof. reflexivity. Qed.
Lemma zsum_cons : forall x l, zsum (x :: l) = x + zsum l.
Proof. reflexivity. Qed.

(** Lexicographic order of equally long vectors: the order of std::vector. *)
Inductive lexlt : list Z -> list Z -> Prop :=
| lex_head : forall x y a b, x < y -> lexlt (x :: a) (y :: b)
| lex_tail : forall x a b, lexlt a b -> lexlt (x :: a) (x :: b).

Lemma lexlt_trans : forall a b c, lexlt a b -> lexlt b c -> lexlt a c.
Proof.
  intros a b c H. revert c. induction H; intros c Hc; inv Hc.
  - constructor; lia.
  - now constructor.
  - now constructor.
  - apply lex_tail. auto.
Qed.

Lemma lexlt_irrefl : forall a, ~ lexlt a a.
Proof. induction a; intros H; inv H; [lia|auto]. Qed.

Lemma lexlt_prefix : forall p a b, lexlt a b -> lexlt (p ++ a) (p ++ b).
Proof. induction p; simpl; intros; auto. apply lex_tail. auto. Qed.

Lemma lexlt_total : forall a b, length a = length b -> a = b \/ lexlt a b \/ lexlt b a.
Proof.
  induction a as [|x a IH]; intros [|y b] H; simpl in H; try lia; auto.
  destruct (Z.lt_trichotomy x y) as [L|[->|L]].
  - right. left. now constructor.
  - destruct (IH b ltac:(lia)) as [->|[H1|H1]]; auto.
    + right. left. now apply lex_tail.
    + right. right. now apply lex_tail.
  - right. right. now constructor.
Qed.

Lemma StronglySorted_app_intro : forall (A : Type) (R : A -> A -> Prop) l1 l2,
  StronglySorted R l1 -> StronglySorted R l2 -> (forall x y, In x l1 -> In y l2 -> R x y) ->
  StronglySorted R (l1 ++ l2).
Proof.
  induction l1 as [|a l1 IH]; intros l2 H1 H2 H; simpl; auto.
  apply StronglySorted_inv in H1 as [H1 F]. constructor.
  - apply IH; auto. intros; apply H; simpl; auto.
  - apply Forall_app. split; auto. apply Forall_forall. intros y Hy. apply H; simpl; auto.
Qed.

Lemma StronglySorted_flat_map : forall (A B : Type) (R : A -> A -> Prop) (Q : B -> B -> Prop) (f : A -> list B) l,
  StronglySorted R l -> (forall a, In a l -> StronglySorted Q (f a)) ->
  (forall a b x y, R a b -> In a l -> In b l -> In x (f a) -> In y (f b) -> Q x y) ->
  StronglySorted Q (flat_map f l).
Proof.
  induction l as [|a l IH]; intros HR Hf HQ; simpl; [constructor|].
  apply StronglySorted_inv in HR as [HR F]. apply StronglySorted_app_intro.
  - apply Hf. now left.
  - apply IH; auto; simpl in *; auto. intros; apply (HQ a0 b); auto.
  - intros x y Hx Hy. apply in_flat_map in Hy as [b [Hb Hy]].
    rewrite Forall_forall in F. apply (HQ a b x y); simpl; auto.
Qed.

Lemma zseq_sorted : forall n a, StronglySorted Z.lt (zseq a n).
Proof.
  induction n; intros; cbn [zseq]; constructor; auto.
  apply Forall_forall. intros x Hx. apply zseq_In in Hx. lia.
Qed.
Lemma zrange_sorted : forall a b, StronglySorted Z.lt (zrange a b).
Proof. intros. apply zseq_sorted. Qed.

Lemma lexsorted_NoDup : forall l, StronglySorted lexlt l -> NoDup l.
Proof.
  induction 1; constructor; auto. intros HI. rewrite Forall_forall in H0.
  apply (lexlt_irrefl a). auto.
Qed.

(** ** Down sets *)

Lemma downSetRec_In : forall rest p v,
  In v (downSetRec rest p) <-> exists w, v = p ++ w /\ Forall2 (fun l k => 1 <= k <= l) rest w.
Proof.
  induction rest as [|l rest IH]; intros p v; cbn [downSetRec].
  - simpl. split.
    + intros [<-|[]]. exists []. rewrite app_nil_r. auto.
    + intros [w [-> H]]. inv H. rewrite app_nil_r. auto.
  - rewrite in_flat_map. split.
    + intros [i [Hi Hv]]. apply zrange_In in Hi. apply IH in Hv as [w [-> Hw]].
      exists (i :: w). rewrite <- app_assoc. split; auto. constructor; auto. lia.
    + intros [w [-> Hw]]. inv Hw. exists y. rewrite zrange_In. split; [lia|].
      apply IH. exists l'. rewrite <- app_assoc. auto.
Qed.

Lemma getDownSet_In : forall l v, In v (getDownSet l) <-> Forall2 (fun l k => 1 <= k <= l) l v.
Proof.
  intros. unfold getDownSet. rewrite downSetRec_In. split.
  - intros [w [-> H]]. auto.
  - intros H. exists v. auto.
Qed.

Lemma downSetRec_sorted : forall rest p, StronglySorted lexlt (downSetRec rest p).
Proof.
  induction rest as [|l rest IH]; intros p; cbn [downSetRec].
  - constructor; constructor.
  - apply (StronglySorted_flat_map _ _ Z.lt); auto using zrange_sorted.
    intros a b x y Hab _ _ Hx Hy. apply downSetRec_In in Hx as [w [-> _]]. apply downSetRec_In in Hy as [w' [-> _]].
    rewrite <- !app_assoc. apply lexlt_prefix. simpl. now constructor.
Qed.

Lemma getDownSet_cart : forall l, getDownSet l = cart (map (fun x => zrange 1 (x + 1)) l).
Proof.
  intros l. unfold getDownSet.
  assert (G : forall rest p, downSetRec rest p = map (fun w => p ++ w) (cart (map (fun x => zrange 1 (x + 1)) rest))).
  { induction rest as [|a rest IH]; intros p; cbn [downSetRec map cart].
    - simpl. now rewrite app_nil_r.
    - rewrite flat_map_concat_map, flat_map_concat_map, concat_map, map_map. f_equal.
      apply map_ext. intros i. rewrite IH, map_map. apply map_ext. intros w. now rewrite <- app_assoc. }
  rewrite G. simpl. apply map_id.
Qed.

(** ** Truncated sets *)

Fixpoint countTrue (m : list bool) : nat :=
  match m with [] => 0 | true :: m' => S (countTrue m') | false :: m' => countTrue m' end.

Lemma selectors_In : forall d k m, In m (selectors d k) <-> length m = d /\ countTrue m = k.
Proof.
  induction d as [|d IH]; intros k m; cbn [selectors].
  - destruct k; simpl; split.
    + intros [<-|[]]; auto.
    + intros [H _]. destruct m; simpl in *; auto; lia.
    + tauto.
    + intros [H H']. destruct m; simpl in *; lia.
  - rewrite in_app_iff, in_map_iff. split.
    + intros [H|[x [<- Hx]]].
      * destruct k; [contradiction|]. apply in_map_iff in H as [x [<- Hx]]. apply IH in Hx. simpl. lia.
      * apply IH in Hx. simpl. lia.
    + intros [H1 H2]. destruct m as [|[|] m]; simpl in *; try lia.
      * left. destruct k; [lia|]. apply in_map_iff. exists m. split; auto. apply IH. lia.
      * right. exists m. split; auto. apply IH. lia.
Qed.

Lemma countTrue_le : forall m, (countTrue m <= length m)%nat.
Proof. induction m as [|[|] m IH]; simpl; lia. Qed.

Lemma mixedSumsOk_spec : forall lmin n l, mixedSumsOk lmin n l = true <->
  forall m, length m = length lmin -> (2 <= countTrue m)%nat -> maskSum m l <= maskSum m lmin + n.
Proof.
  intros lmin n l. unfold mixedSumsOk. rewrite forallb_forall. split.
  - intros H m HL HC. pose proof (countTrue_le m) as C.
    specialize (H (countTrue m)). rewrite in_seq in H. specialize (H ltac:(lia)).
    rewrite forallb_forall in H. specialize (H m). rewrite selectors_In in H.
    specialize (H (conj HL eq_refl)). destruct (Z.gtb_spec (maskSum m l) (maskSum m lmin + n)); simpl in H; [discriminate|lia].
  - intros H k Hk. apply in_seq in Hk. apply forallb_forall. intros m Hm. apply selectors_In in Hm as [HL HC].
    specialize (H m HL ltac:(lia)).
    destruct (Z.gtb_spec (maskSum m l) (maskSum m lmin + n)); auto. lia.
Qed.

Lemma fold_add_zsum : forall l a, fold_left Z.add l a = a + zsum l.
Proof.
  induction l; intros; cbn [fold_left]; unfold zsum; cbn [fold_right]; [ring|].
  rewrite IHl. unfold zsum. ring.
Qed.
Lemma levelSum_zsum : forall l, levelSum l = zsum l.
Proof. intros. unfold levelSum. rewrite fold_add_zsum. ring. Qed.

Lemma zsum_ge_length : forall lm w, Forall2 (fun lm x => 1 <= x <= lm) lm w -> 0 <= zsum w.
Proof. induction 1; [reflexivity|]. rewrite zsum_cons. lia. Qed.

Lemma truncRec_In : forall rest lmin n p v, rest <> [] ->
  (In v (truncatedLevelsRec rest lmin n p) <->
   exists w, v = p ++ w /\ Forall2 (fun lm x => 1 <= x <= lm) rest w /\
     zsum v <= zsum lmin + n /\ mixedSumsOk lmin n v = true).
Proof.
  induction rest as [|lm rest IH]; intros lmin n p v Hne; [congruence|].
  cbn [truncatedLevelsRec]. rewrite in_flat_map. setoid_rewrite zrange_In. rewrite !levelSum_zsum. split.
  - intros [x [Hx Hv]]. destruct (Z.gtb_spec x lm); [contradiction|].
    destruct rest as [|lm' rest].
    + destruct (mixedSumsOk lmin n (p ++ [x])) eqn:E; [|contradiction]. destruct Hv as [<-|[]].
      exists [x]. repeat split; auto; [repeat constructor; lia|]. rewrite zsum_app, zsum_cons. change (zsum []) with 0. lia.
    + apply IH in Hv; [|discriminate]. destruct Hv as [w [-> [F [S M]]]]. exists (x :: w).
      rewrite <- app_assoc in *. repeat split; auto. constructor; auto. lia.
  - intros [w [-> [F [S M]]]]. inv F. rewrite zsum_app, zsum_cons in S.
    pose proof (zsum_ge_length _ _ ltac:(eassumption)) as P.
    exists y. split; [lia|]. destruct (Z.gtb_spec y lm); [lia|].
    destruct rest as [|lm' rest].
    + match goal with HF : Forall2 _ [] _ |- _ => inv HF end. rewrite M. now left.
    + apply IH; [discriminate|]. exists l'. rewrite <- app_assoc. repeat split; auto.
      simpl. rewrite zsum_app, zsum_cons. lia.
Qed.

Lemma truncRec_sorted : forall rest lmin n p, StronglySorted lexlt (truncatedLevelsRec rest lmin n p).
Proof.
  induction rest as [|lm rest IH]; intros lmin n p; cbn [truncatedLevelsRec]; [constructor|].
  apply (StronglySorted_flat_map _ _ Z.lt); auto using zrange_sorted.
  - intros x _. destruct (x >? lm); [constructor|]. destruct rest; auto.
    destruct (mixedSumsOk lmin n (p ++ [x])); repeat constructor.
  - intros a b x y Hab _ _ Hx Hy.
    assert (G : forall c z, In z (if c >? lm then [] else match rest with
             | [] => if mixedSumsOk lmin n (p ++ [c]) then [p ++ [c]] else []
             | _ :: _ => truncatedLevelsRec rest lmin n (p ++ [c]) end) -> exists w, z = p ++ c :: w).
    { intros c z Hz. destruct (c >? lm); [contradiction|]. destruct rest.
      - destruct (mixedSumsOk lmin n (p ++ [c])); [|contradiction]. destruct Hz as [<-|[]]. exists []. reflexivity.
      - apply truncRec_In in Hz; [|discriminate]. destruct Hz as [w [-> _]]. exists w. now rewrite <- app_assoc. }
    apply G in Hx as [w ->]. apply G in Hy as [w' ->]. apply lexlt_prefix. now constructor.
Qed.

(** ** Closed form of the truncated set *)

Definition excess (l rlmin : list Z) : Z := zsum (map2 (fun x m => Z.max 0 (x - m)) l rlmin).

Lemma maskSum_excess : forall m l r, length l = length r -> length m = length r ->
  maskSum m l - maskSum m r <= excess l r.
Proof.
  unfold excess. induction m as [|b m IH]; intros [|x l] [|y r] H1 H2; simpl in *; rewrite ?zsum_nil in *; try lia.
  rewrite zsum_cons. specialize (IH l r ltac:(lia) ltac:(lia)). destruct b; lia.
Qed.

Definition posMask (l r : list Z) : list bool := map2 (fun x y => y <? x) l r.

Lemma posMask_excess : forall l r, length l = length r ->
  maskSum (posMask l r) l - maskSum (posMask l r) r = excess l r.
Proof.
  unfold excess, posMask. induction l as [|x l IH]; intros [|y r] H; simpl in *; rewrite ?zsum_nil in *; try lia.
  rewrite zsum_cons. specialize (IH r ltac:(lia)). destruct (Z.ltb_spec y x); lia.
Qed.

Lemma excess_few : forall l r n, length l = length r -> 0 <= n ->
  (countTrue (posMask l r) < 2)%nat -> Forall2 (fun x y => x <= y + n) l r -> excess l r <= n.
Proof.
  unfold excess, posMask. intros l r n _ Hn. intros C F.
  assert (G : forall l r, countTrue (map2 (fun x y => y <? x) l r) = 0%nat ->
            zsum (map2 (fun x m => Z.max 0 (x - m)) l r) = 0).
  { clear. induction l as [|x l IH]; intros [|y r] H; simpl in *; rewrite ?zsum_nil in *; auto.
    rewrite zsum_cons. destruct (Z.ltb_spec y x); [lia|]. rewrite IH by auto. lia. }
  induction F as [|x y l r Hx F IH]; simpl in *; rewrite ?zsum_nil in *; [lia|].
  rewrite zsum_cons. destruct (Z.ltb_spec y x).
  - rewrite G by lia. lia.
  - specialize (IH C). lia.
Qed.

Lemma excess_nonneg : forall l r, 0 <= excess l r.
Proof.
  unfold excess. induction l as [|x l IH]; intros [|y r]; simpl; rewrite ?zsum_nil; try lia.
  rewrite zsum_cons. specialize (IH r). lia.
Qed.

Lemma Forall2_excess : forall l r n, length l = length r -> excess l r <= n ->
  Forall2 (fun x y => x <= y + n) l r.
Proof.
  unfold excess. induction l as [|x l IH]; intros [|y r] n H E; simpl in *; rewrite ?zsum_nil in *; try lia; constructor.
  - rewrite zsum_cons in E. pose proof (excess_nonneg l r) as P. unfold excess in P. lia.
  - apply IH; [lia|]. rewrite zsum_cons in E. lia.
Qed.

Lemma maskSum_all : forall l, maskSum (repeat true (length l)) l = zsum l.
Proof. induction l; simpl; rewrite ?zsum_nil; auto. rewrite zsum_cons. lia. Qed.

Lemma countTrue_repeat : forall n, countTrue (repeat true n) = n.
Proof. induction n; simpl; auto. Qed.

Lemma posMask_length : forall l r, length l = length r -> length (posMask l r) = length r.
Proof. intros. unfold posMask. rewrite map2_length; lia. Qed.

Lemma zsum_excess : forall l r, length l = length r -> zsum l - zsum r <= excess l r.
Proof.
  unfold excess. induction l as [|x l IH]; intros [|y r] H; simpl in *; rewrite ?zsum_nil in *; try lia.
  rewrite !zsum_cons. specialize (IH r ltac:(lia)). lia.
Qed.

Lemma minElement_le : forall l x, In x l -> minElement l <= x.
Proof.
  intros [|a l] x Hx; [contradiction|]. simpl.
  assert (G : forall l a, fold_left Z.min l a <= a /\ forall x, In x l -> fold_left Z.min l a <= x).
  { induction l0 as [|b l0 IH]; intros c; simpl; [split; [lia|tauto]|].
    destruct (IH (Z.min c b)) as [I1 I2]. split; [lia|]. intros y [->|Hy]; [lia|auto]. }
  destruct (G l a) as [G1 G2]. destruct Hx as [->|Hx]; auto.
Qed.

Lemma minElement_In : forall l, l <> [] -> In (minElement l) l.
Proof.
  intros [|a l] H; [congruence|]. simpl.
  assert (G : forall l a, fold_left Z.min l a = a \/ In (fold_left Z.min l a) l).
  { induction l0 as [|b l0 IH]; intros c; simpl; auto.
    destruct (IH (Z.min c b)) as [E|E]; [|auto]. rewrite E. destruct (Z.min_spec c b) as [[_ ->]|[_ ->]]; auto. }
  destruct (G l a); auto.
Qed.

Lemma minElement_diff_nonneg : forall lmax lmin, lmax <> [] ->
  Forall2 Z.le lmin lmax -> 0 <= minElement (map2 Z.sub lmax lmin).
Proof.
  intros lmax lmin Hne F.
  assert (H : map2 Z.sub lmax lmin <> []).
  { destruct lmax; [congruence|]. inv F. discriminate. }
  apply minElement_In in H. revert H. generalize (minElement (map2 Z.sub lmax lmin)).
  clear Hne. induction F; simpl; intros z E; [contradiction|destruct E as [E|E]; [lia|auto]].
Qed.

Lemma truncated_closed_form : forall lmax lmin v, lmax <> [] -> Forall2 Z.le lmin lmax ->
  let n := minElement (map2 Z.sub lmax lmin) in
  (In v (truncatedLevels lmax lmin) <->
   length v = length lmax /\ Forall (fun x => 1 <= x) v /\ excess v (map (fun x => x - n) lmax) <= n).
Proof.
  intros lmax lmin v Hne F n. unfold truncatedLevels. fold n.
  pose proof (minElement_diff_nonneg lmax lmin Hne F) as Hn. fold n in Hn. clearbody n.
  rewrite truncRec_In by auto. set (r := map (fun x => x - n) lmax).
  assert (Lr : length r = length lmax) by apply map_length.
  split.
  - intros [w [-> [FW [S M]]]]. simpl in *.
    assert (Lw : length w = length lmax) by (apply Forall2_length in FW; lia).
    split; [auto|]. split.
    + clear -FW. induction FW; constructor; auto. lia.
    + rewrite mixedSumsOk_spec in M.
      destruct (Nat.lt_ge_cases (countTrue (posMask w r)) 2) as [C|C].
      * apply excess_few; auto; [lia|]. unfold r. clear -FW. induction FW; simpl; constructor; auto. lia.
      * rewrite <- posMask_excess by lia. specialize (M (posMask w r) (posMask_length w r ltac:(lia)) C). lia.
  - intros [L [P E]]. exists v. split; auto. split; [|split].
    + pose proof (Forall2_excess v r n ltac:(lia) E) as FE. unfold r in FE. clear -P FE L.
      revert lmax FE L. induction P; intros [|a lm] FE L; simpl in *; rewrite ?zsum_nil in *; try lia; constructor; inv FE; auto.
      lia.
    + pose proof (zsum_excess v r ltac:(lia)). lia.
    + apply mixedSumsOk_spec. intros m Hm _. pose proof (maskSum_excess m v r ltac:(lia) Hm). lia.
Qed.
