(** C115: norms belong to their tasks. C116: parameters after a signal. *)
From Coq Require Import QArith Qcanon.
From Verif Require Import Base HierMassProofs InterpModel InterpProps MessagesModel.
From Coq Require Import Permutation.
Open Scope Z_scope.
Ltac Zify.zify_post_hook ::= idtac.

(** ** Norms *)
Lemma nodup_right : forall a b : list Z, NoDup (a ++ b) -> NoDup b.
Proof. induction a as [|x a IH]; intros b H; [exact H|]. inversion H; auto. Qed.
Lemma nodup_left : forall a b : list Z, NoDup (a ++ b) -> NoDup a.
Proof. induction a as [|x a IH]; intros b H; [constructor|]. cbn [app] in H. inversion H as [|? ? NI ND]; subst. constructor; [|eauto]. intros HX. apply NI. apply in_or_app. now left. Qed.
Lemma ids_app : forall s1 s2 : list grp, map gtId (flat_map gMgr (s1 ++ s2)) = map gtId (flat_map gMgr s1) ++ map gtId (flat_map gMgr s2).
Proof. intros. now rewrite flat_map_app, map_app. Qed.
Lemma removeFirst_id : forall l t, NoDup (map gtId l) -> In t l -> forall p, find p l = Some t -> removeFirst p l = removeFirst (hasId (gtId t)) l.
Proof.
  induction l as [|x l IH]; intros t ND HI p HF; [reflexivity|]. cbn [find] in HF. cbn [removeFirst]. cbn [map] in ND. inversion ND as [|? ? NI ND']; subst. unfold hasId at 1.
  destruct (p x) eqn:E.
  - injection HF as <-. now rewrite Z.eqb_refl.
  - assert (HT := find_some p l HF). destruct HT as [HT _]. destruct (Z.eqb_spec (gtId x) (gtId t)) as [E2|E2].
    + exfalso. apply NI. rewrite E2. now apply in_map.
    + f_equal. now apply IH.
Qed.
Lemma removeFirst_filter : forall l k, NoDup (map gtId l) -> removeFirst (hasId k) l = filter (fun t => negb (gtId t =? k)) l.
Proof.
  induction l as [|x l IH]; intros k ND; [reflexivity|]. cbn [map] in ND. inversion ND as [|? ? NI ND']; subst. cbn [removeFirst filter]. unfold hasId at 1.
  destruct (Z.eqb_spec (gtId x) k) as [E|E]; cbn [negb].
  - symmetry. assert (H : forall m, ~ In k (map gtId m) -> filter (fun t => negb (gtId t =? k)) m = m).
    { induction m as [|y m IHm]; intros HN; [reflexivity|]. cbn [map In] in HN. cbn [filter]. destruct (Z.eqb_spec (gtId y) k); [tauto|]. cbn [negb]. rewrite IHm; tauto. }
    apply H. now rewrite <- E.
  - f_equal. now apply IH.
Qed.
Lemma nodup_filter : forall (p : gtask -> bool) l, NoDup (map gtId l) -> NoDup (map gtId (filter p l)).
Proof.
  intros p l ND. induction l as [|x l IH]; [constructor|]. cbn [map] in ND. inversion ND as [|? ? NI ND']; subst. cbn [filter]. destruct (p x); [|auto].
  cbn [map]. constructor; [|auto]. intros HI. apply NI. apply in_map_iff in HI. destruct HI as (y & E & Hy). apply filter_In in Hy. rewrite <- E. apply in_map. tauto.
Qed.
Lemma filter_filter : forall (p q : gtask -> bool) l, filter p (filter q l) = filter (fun t => q t && p t) l.
Proof. intros p q l. induction l as [|x l IH]; [reflexivity|]. cbn [filter]. destruct (q x); cbn [filter andb]; [destruct (p x)|]; rewrite IH; reflexivity. Qed.
Lemma remove_all : forall del l, NoDup (map gtId l) ->
  fold_left (fun m t => removeFirst (hasId (gtId t)) m) del l = filter (fun t => negb (existsb (fun d => gtId t =? gtId d) del)) l.
Proof.
  induction del as [|d del IH]; intros l ND; cbn [fold_left existsb].
  - cbn [negb]. induction l as [|x l IHl]; [reflexivity|]. cbn [filter]. f_equal. apply IHl. now inversion ND.
  - rewrite removeFirst_filter by auto. rewrite IH by now apply nodup_filter. rewrite filter_filter. apply filter_ext. intros t. now rewrite negb_orb.
Qed.
Lemma remove_ignored : forall p l, NoDup (map gtId l) -> (forall x y, gtId x = gtId y -> p x = p y) ->
  fold_left (fun m t => removeFirst (hasId (gtId t)) m) (filter p l) l = filter (fun t => negb (p t)) l.
Proof.
  intros p l ND HP. rewrite remove_all by auto. apply filter_ext_in. intros t Ht. f_equal. destruct (p t) eqn:E.
  - apply existsb_exists. exists t. split; [apply filter_In; auto|apply Z.eqb_refl].
  - apply not_true_is_false. intros H. apply existsb_exists in H. destruct H as (d & Hd & E2). apply filter_In in Hd. apply Z.eqb_eq in E2.
    destruct Hd as [_ Hd]. rewrite <- (HP t d E2) in Hd. congruence.
Qed.
Definition good (s : list grp) : Prop := NoDup (map gtId (flat_map gMgr s)) /\ forall g, In g s -> gBroken g = false -> gMgr g = gWrk g.
Lemma nodup_replace : forall (a l l' b : list Z), NoDup (a ++ l ++ b) -> NoDup l' -> incl l' l -> NoDup (a ++ l' ++ b).
Proof.
  intros a l l' b H HL HI. induction a as [|x a IH]; cbn [app] in *.
  - revert H. induction l' as [|y l' IHl]; intros H; cbn [app]; [now apply nodup_right in H|]. inversion HL as [|? ? NI ND]; subst. constructor.
    + intros HX. apply in_app_or in HX. destruct HX as [HX|HX]; [contradiction|]. assert (Hy : In y l) by (apply HI; now left).
      apply in_split in Hy. destruct Hy as (l1 & l2 & ->). rewrite <- app_assoc in H. cbn [app] in H. apply NoDup_remove_2 in H. apply H. apply in_or_app. right. apply in_or_app. now right.
    + apply IHl; auto. intros z Hz. apply HI. now right.
  - inversion H as [|? ? NI ND]; subst. constructor; [|auto]. intros HX. apply NI. apply in_app_or in HX. destruct HX as [HX|HX]; [apply in_or_app; auto|].
    apply in_app_or in HX. apply in_or_app. right. apply in_or_app. destruct HX as [HX|HX]; auto.
Qed.
Lemma reach_good : forall n s, reachable n s -> good s.
Proof.
  intros n s H. induction H as [|s1 g s2 o g' HR [ND HG] HA HS|s1 g s2 HR [ND HG]].
  - assert (E : flat_map gMgr (repeat (GR [] [] false) n) = []) by (induction n; auto). split; [rewrite E; constructor|]. intros g Hg _. apply repeat_spec in Hg. now subst.
  - assert (NDg : NoDup (map gtId (gMgr g))).
    { rewrite ids_app in ND. apply nodup_right in ND. cbn [flat_map] in ND. rewrite map_app in ND. now apply nodup_left in ND. }
    assert (OLD : forall x, In x s1 \/ In x s2 -> gBroken x = false -> gMgr x = gWrk x) by (intros x Hx; apply HG; apply in_or_app; cbn [In]; tauto).
    assert (SPLIT : forall l, NoDup (map gtId (flat_map gMgr s1) ++ l ++ map gtId (flat_map gMgr s2)) -> l = map gtId (gMgr g') -> (gBroken g' = false -> gMgr g' = gWrk g') -> good (s1 ++ g' :: s2)).
    { intros l HN -> HB. split; [rewrite ids_app; cbn [flat_map]; now rewrite map_app|]. intros x Hx. apply in_app_or in Hx. cbn [In] in Hx.
      destruct Hx as [Hx|[<-|Hx]]; auto. }
    rewrite ids_app in ND. cbn [flat_map] in ND. rewrite map_app in ND.
    assert (HGg : gBroken g = false -> gMgr g = gWrk g) by (apply HG; apply in_or_app; cbn [In]; tauto).
    destruct o as [t|level|ignore|rest]; cbn [stepGroup] in HS.
    + injection HS as <-. eapply SPLIT; [|reflexivity|cbn [gMgr gWrk gBroken]; intros HB; now rewrite HGg]. cbn [gMgr allowed] in *. rewrite map_app. cbn [map].
      rewrite ids_app in HA. cbn [flat_map] in HA. rewrite map_app in HA. rewrite <- app_assoc. cbn [app]. rewrite app_assoc.
      apply (Permutation_NoDup (l := gtId t :: (map gtId (flat_map gMgr s1) ++ map gtId (gMgr g)) ++ map gtId (flat_map gMgr s2))); [apply Permutation_middle|].
      rewrite <- app_assoc. constructor; auto.
    + destruct (find (hasLevel level) (gMgr g)) as [t|] eqn:EF; [|injection HS as <-; eapply SPLIT; eauto]. assert (HI := find_some _ _ EF). destruct HI as [HI _].
      destruct (existsb _ _); [|discriminate]. rewrite (removeFirst_id (gMgr g) t NDg HI _ EF) in HS. injection HS as <-.
      eapply SPLIT; [|reflexivity|cbn [gMgr gWrk gBroken]; intros HB; now rewrite HGg]. cbn [gMgr]. rewrite removeFirst_filter by auto.
      eapply nodup_replace; [exact ND|now apply nodup_filter|]. intros x Hx. apply in_map_iff in Hx. destruct Hx as (y & <- & Hy). apply filter_In in Hy. apply in_map. tauto.
    + cbv zeta in HS. rewrite remove_ignored in HS by (auto; intros x y E; now rewrite E). injection HS as <-. eapply SPLIT; [|reflexivity|reflexivity]. cbn [gMgr].
      eapply nodup_replace; [exact ND|now apply nodup_filter|]. intros x Hx. apply in_map_iff in Hx. destruct Hx as (y & <- & Hy). apply filter_In in Hy. apply in_map. tauto.
    + injection HS as <-. eapply SPLIT; [exact ND|reflexivity|]. cbn [gBroken]. discriminate.
  - split; [|intros x Hx; apply HG; apply in_app_or in Hx; apply in_or_app; cbn [In]; tauto]. rewrite ids_app in *. cbn [flat_map] in ND. rewrite map_app in ND.
    apply (nodup_replace _ (map gtId (gMgr g)) []); [exact ND|constructor|intros x []].
Qed.

(** Manager and group list the same tasks in the same order, in every group that has not crashed or was restored afterwards. *)
Theorem C115_same_order : forall n s g, reachable n s -> In g s -> gBroken g = false -> gWrk g = gMgr g /\ NoDup (map gtId (gMgr g)).
Proof.
  intros n s g HR HI HB. destruct (reach_good n s HR) as [ND HG]. split; [symmetry; auto|]. apply in_split in HI. destruct HI as (s1 & s2 & ->).
  rewrite ids_app in ND. cbn [flat_map] in ND. rewrite map_app in ND. apply nodup_right in ND. now apply nodup_left in ND.
Qed.
(** So the manager never waits for a task that the group does not have, and the task it gets is the one of the level. *)
Theorem C115_remove : forall n s g level, reachable n s -> In g s -> gBroken g = false ->
  exists g', stepGroup (GRemove level) g = Some g' /\
    forall t, In t (gWrk g') <-> In t (gWrk g) /\ find (hasLevel level) (gMgr g) <> Some t.
Proof.
  intros n s g level HR HI HB. destruct (C115_same_order n s g HR HI HB) as [E ND]. cbn [stepGroup]. destruct (find (hasLevel level) (gMgr g)) as [t|] eqn:EF.
  - assert (HF := find_some _ _ EF). destruct HF as [HF _]. assert (EX : existsb (hasId (gtId t)) (gWrk g) = true) by (apply existsb_exists; exists t; rewrite E; split; auto; apply Z.eqb_refl).
    rewrite EX. eexists. split; [reflexivity|]. cbn [gWrk]. intros u. rewrite E, removeFirst_filter by auto. rewrite filter_In. split; intros [H1 H2]; split; auto.
    + intros [= ->]. rewrite Z.eqb_refl in H2. discriminate.
    + destruct (Z.eqb_spec (gtId u) (gtId t)) as [E2|]; [|reflexivity]. exfalso. apply H2. f_equal.
      clear -ND HF H1 E2. induction (gMgr g) as [|x l IH]; [contradiction|]. cbn [map] in ND. inversion ND as [|? ? NI ND']; subst. destruct HF as [->|HF], H1 as [->|H1]; auto;
        exfalso; apply NI; [rewrite <- E2|rewrite E2]; now apply in_map.
  - exists g. split; [reflexivity|]. intros t. split; [intros H; split; [exact H|discriminate]|tauto].
Qed.

Lemma setKey_fresh : forall m k v, ~ In k (map fst m) -> setKey m k v = m ++ [(k, v)].
Proof.
  induction m as [|[k' v'] m IH]; intros k v H; [reflexivity|]. cbn [map fst In] in H. cbn [setKey app]. destruct (Z.eqb_spec k' k); [tauto|]. now rewrite IH by tauto.
Qed.
Lemma fold_seq_nth : forall {B : Type} (f : B -> gtask -> B) (l : list gtask) b d, fold_left (fun m j => f m (nth j l d)) (seq 0 (length l)) b = fold_left f l b.
Proof.
  intros B f l b d. revert b. induction l as [|x l IH]; intros b; [reflexivity|]. cbn [length seq fold_left nth]. rewrite <- IH. rewrite <- seq_shift.
  generalize (seq 0 (length l)) (f b x). intros q. induction q as [|j q IHq]; intros b'; [reflexivity|]. cbn [map fold_left nth]. apply IHq.
Qed.
Lemma groupNorms_good : forall norm l b m, NoDup (map fst m ++ map gtId l) ->
  groupNorms norm (GR l l b) m = Some (m ++ map (fun t => (gtId t, norm t)) l).
Proof.
  intros norm l b m H. unfold groupNorms. cbn [gMgr gWrk]. rewrite map_length, Nat.ltb_irrefl. f_equal.
  transitivity (fold_left (fun m j => setKey m (gtId (nth j l (GT 0 []))) (norm (nth j l (GT 0 [])))) (seq 0 (length l)) m).
  - assert (HJ : forall j, In j (seq 0 (length l)) -> (j < length l)%nat) by (intros j Hj; apply in_seq in Hj; lia).
    revert m HJ H. generalize (seq 0 (length l)). intros q. intros m HJ _. revert m. induction q as [|j q IH]; intros m; [reflexivity|]. cbn [fold_left].
    rewrite (nth_indep _ 0%Qc (norm (GT 0 []))) by (rewrite map_length; apply HJ; now left). rewrite map_nth. apply IH. intros i Hi. apply HJ. now right.
  - rewrite (fold_seq_nth (fun m t => setKey m (gtId t) (norm t))). revert m H. induction l as [|t l IH]; intros m H; [now rewrite app_nil_r|]. cbn [fold_left map] in *.
    assert (NI : ~ In (gtId t) (map fst m)) by (apply NoDup_remove_2 in H; intros HX; apply H; apply in_or_app; now left).
    rewrite setKey_fresh by auto. rewrite IH; [now rewrite <- app_assoc|]. rewrite map_app. cbn [map fst]. now rewrite <- app_assoc.
Qed.
Lemma systemNorms_good : forall norm s m, (forall g, In g s -> gBroken g = false /\ gMgr g = gWrk g) -> NoDup (map fst m ++ map gtId (flat_map gMgr s)) ->
  systemNorms norm s m = Some (m ++ map (fun t => (gtId t, norm t)) (flat_map gWrk s)).
Proof.
  induction s as [|g s IH]; intros m HG ND; [now rewrite app_nil_r|]. cbn [systemNorms flat_map] in *. destruct (HG g (or_introl eq_refl)) as [_ E]. rewrite map_app in ND.
  destruct g as [mg wr br]. cbn [gMgr gWrk] in *. subst wr. rewrite app_assoc in ND. rewrite groupNorms_good.
  - rewrite IH; [|intros g Hg; apply HG; now right|rewrite map_app, map_map; exact ND]. now rewrite map_app, app_assoc.
  - now apply nodup_left in ND.
Qed.
Lemma getKey_in : forall m k v, NoDup (map fst m) -> (getKey m k = Some v <-> In (k, v) m).
Proof.
  induction m as [|[k' v'] m IH]; intros k v ND; [split; [discriminate|contradiction]|]. cbn [map fst] in ND. inversion ND as [|? ? NI ND']; subst. cbn [getKey In].
  destruct (Z.eqb_spec k' k) as [->|NE].
  - split; [intros [= ->]; now left|]. intros [[= ->]|H]; [reflexivity|]. exfalso. apply NI. now apply (in_map fst) in H.
  - rewrite IH by auto. split; [now right|]. intros [[= -> ->]|H]; [congruence|exact H].
Qed.
(** getLpNorms gives for every task of every group the norm of this task, and nothing else. *)
Theorem C115_norms : forall n s norm, reachable n s -> (forall g, In g s -> gBroken g = false) ->
  exists m, systemNorms norm s [] = Some m /\ forall k v, getKey m k = Some v <-> exists g t, In g s /\ In t (gWrk g) /\ gtId t = k /\ norm t = v.
Proof.
  intros n s norm HR HB. destruct (reach_good n s HR) as [ND HG]. eexists. split; [apply systemNorms_good; [intros g Hg; split; auto|exact ND]|]. cbn [app].
  assert (EW : flat_map gWrk s = flat_map gMgr s) by (rewrite !flat_map_concat_map; f_equal; apply map_ext_in; intros g Hg; symmetry; auto).
  intros k v. rewrite getKey_in by (rewrite map_map; cbn [fst]; now rewrite EW). rewrite in_map_iff. split.
  - intros (t & [= <- <-] & Ht). apply in_flat_map in Ht. destruct Ht as (g & Hg & Ht). exists g, t. auto.
  - intros (g & t & Hg & Ht & <- & <-). exists t. split; [reflexivity|]. apply in_flat_map. exists g. auto.
Qed.
(** getLpNorm is the sum of the norms with the coefficients of their own tasks. *)
Theorem C115_combined : forall n s norm coeff, reachable n s -> (forall g, In g s -> gBroken g = false) ->
  systemNorm norm coeff s = Some (qsum (map (fun t => norm t * coeff (gtId t))%Qc (flat_map gWrk s))).
Proof.
  intros n s norm coeff HR HB. destruct (reach_good n s HR) as [ND HG]. unfold systemNorm. rewrite systemNorms_good; [|intros g Hg; split; auto|exact ND]. cbn [app option_map].
  f_equal. rewrite C34_combined_norm, !map_map. reflexivity.
Qed.

(** ** Parameters *)
Section Calls.
Context {A : Type}.
Lemma take_class : forall sync (a : A) l, takeMessage sync classTag (map (pair classTag) (a :: l)) = Some (a, map (pair classTag) l).
Proof. intros [] a l; reflexivity. Qed.
Lemma receive_names : forall sync n order (names : list A) args, (forall i, In i order -> (i < n)%nat) -> length order = length names -> NoDup order ->
  exists f, receiveArgs sync (repeat classTag n) order (map (pair classTag) names) args = Some f /\
    (forall k, (k < length order)%nat -> f (nth k order O) = nth_error names k) /\ (forall j, ~ In j order -> f j = args j).
Proof.
  intros sync n. induction order as [|i order IH]; intros names args HI HL ND.
  - exists args. split; [reflexivity|]. split; [intros k Hk; cbn in Hk; lia|reflexivity].
  - destruct names as [|a names]; [discriminate|]. cbn [receiveArgs].
    assert (E : nth i (repeat classTag n) 0 = classTag).
    { assert (Hi : (i < n)%nat) by (apply HI; now left). clear -Hi. revert i Hi. induction n as [|n IHn]; intros [|i] Hi; try lia; [reflexivity|]. cbn. apply IHn. lia. }
    rewrite E, take_class. inversion ND as [|? ? NI ND']; subst.
    destruct (IH names (fun j => if Nat.eqb j i then Some a else args j)) as (f & F1 & F2 & F3); [intros j Hj; apply HI; now right|now injection HL|auto|].
    exists f. split; [exact F1|]. split.
    + intros [|k] Hk; cbn [nth nth_error length] in *; [|apply F2; lia]. rewrite F3 by auto. now rewrite Nat.eqb_refl.
    + intros j Hj. cbn [In] in Hj. rewrite F3 by tauto. destruct (Nat.eqb_spec j i); [subst; tauto|reflexivity].
Qed.
(** Whatever the order of evaluation: the argument that is evaluated k-th gets the k-th name. *)
Theorem C116_kth_evaluated : forall sync order (names : list A), Permutation order (seq 0 (length names)) ->
  exists args, fileCall sync order names = Some args /\ length args = length names /\ forall k, (k < length names)%nat -> nth (nth k order O) args None = nth_error names k.
Proof.
  intros sync order names HP. assert (HL : length order = length names) by (rewrite (Permutation_length HP); apply seq_length).
  assert (HI : forall i, In i order -> (i < length names)%nat) by (intros i Hi; apply (Permutation_in _ HP) in Hi; apply in_seq in Hi; lia).
  assert (ND : NoDup order) by (eapply Permutation_NoDup; [symmetry; exact HP|apply seq_NoDup]).
  destruct (receive_names sync (length names) order names (fun _ => None) HI HL ND) as (f & F1 & F2 & _).
  unfold fileCall, callArgs. rewrite F1. cbn [option_map]. eexists. split; [reflexivity|]. rewrite repeat_length, map_length, seq_length. split; [reflexivity|]. intros k Hk.
  rewrite <- F2 by lia. assert (Hj : (nth k order O < length names)%nat) by (apply HI; apply nth_In; lia).
  rewrite (nth_indep _ None (f O)) by now rewrite map_length, seq_length. rewrite map_nth. now rewrite seq_nth.
Qed.
(** From left to right each name arrives at its parameter. *)
Theorem C116_left_to_right_partial : forall sync (names : list A), fileCall sync (seq 0 (length names)) names = Some (map Some names).
Proof.
  intros sync names. destruct (C116_kth_evaluated sync (seq 0 (length names)) names (Permutation_refl _)) as (args & H1 & H2 & H3). rewrite H1. f_equal.
  apply (nth_ext _ _ None None); [now rewrite map_length|]. intros k Hk. rewrite H2 in Hk. specialize (H3 k Hk). rewrite seq_nth in H3 by auto. cbn [Nat.add] in H3. rewrite H3.
  clear -Hk. revert k Hk. induction names as [|a names IH]; intros [|k] Hk; cbn in *; try lia; auto. apply IH. lia.
Qed.
(** In any other order, which C++ allows, they do not if the names differ. *)
Theorem C116_names_refuted : forall sync order (names : list A), Permutation order (seq 0 (length names)) -> NoDup names -> order <> seq 0 (length names) ->
  fileCall sync order names <> Some (map Some names).
Proof.
  intros sync order names HP ND NE HC. destruct (C116_kth_evaluated sync order names HP) as (args & H1 & H2 & H3). rewrite H1 in HC. injection HC as ->. apply NE.
  assert (HL : length order = length names) by (rewrite (Permutation_length HP); apply seq_length).
  apply (nth_ext _ _ O O); [now rewrite seq_length|]. intros k Hk. rewrite HL in Hk. specialize (H3 k Hk). rewrite seq_nth by auto. cbn [Nat.add].
  assert (Hj : (nth k order O < length names)%nat).
  { assert (HI : In (nth k order O) order) by (apply nth_In; lia). apply (Permutation_in _ HP) in HI. apply in_seq in HI. lia. }
  assert (E : nth_error names (nth k order O) = nth_error names k).
  { rewrite <- H3. generalize (nth k order O) Hj. clear. induction names as [|a names IH]; intros [|j] Hj; cbn in *; try lia; auto. apply IH. lia. }
  rewrite NoDup_nth_error in ND. apply ND; auto.
Qed.
(** The name and the coordinates for an interpolation arrive in any order of evaluation, if sends do not wait. *)
Theorem C116_interpolation_partial : forall order (name coords : A), Permutation order [0; 1]%nat -> interpolationCall false order name coords = Some [Some coords; Some name].
Proof.
  intros order name coords HP. apply Permutation_sym, Permutation_length_2_inv in HP. destruct HP as [->| ->]; reflexivity.
Qed.
(** If they do, an evaluation from left to right waits for the coordinates while the manager waits for the name to be received. *)
Theorem C116_interpolation_refuted : forall name coords : A, interpolationCall true [0; 1]%nat name coords = None /\
  interpolationCall true [1; 0]%nat name coords = Some [Some coords; Some name].
Proof. intros. split; reflexivity. Qed.
(** So there is no order of evaluation with which both work. *)
Theorem C116_no_order_refuted : forall order (a b name coords : A), Permutation order [0; 1]%nat -> a <> b ->
  fileCall true order [a; b] = Some [Some a; Some b] -> interpolationCall true order name coords = None.
Proof.
  intros order a b name coords HP NE HF. apply Permutation_sym, Permutation_length_2_inv in HP. destruct HP as [->| ->]; [reflexivity|]. exfalso. apply NE.
  cbv in HF. now injection HF.
Qed.
End Calls.

(** Two groups; a task moves to the other group, a group crashes and is restored without one of its tasks, which the other recomputes. *)
Definition ta : gtask := GT 7 [3; 1].
Definition tb : gtask := GT 4 [2; 2].
Definition tc : gtask := GT 9 [1; 3].
Definition td : gtask := GT 2 [2; 1].
Definition exGroups : list grp := [GR [ta; tc] [ta; tc] false; GR [td; tb] [td; tb] false].
Example C115_ex_reachable : reachable 2 exGroups.
Proof.
  assert (S1 : reachable 2 [GR [ta] [ta] false; GR [] [] false]) by (apply (R_step 2 [] (GR [] [] false) [GR [] [] false] (GSend ta)); [constructor|cbn; tauto|reflexivity]).
  assert (S2 : reachable 2 [GR [ta] [ta] false; GR [tc] [tc] false]) by (apply (R_step 2 [GR [ta] [ta] false] (GR [] [] false) [] (GSend tc)); [exact S1|cbn; intuition discriminate|reflexivity]).
  assert (S3 : reachable 2 [GR [ta; tb] [ta; tb] false; GR [tc] [tc] false]) by (apply (R_step 2 [] (GR [ta] [ta] false) [GR [tc] [tc] false] (GSend tb)); [exact S2|cbn; intuition discriminate|reflexivity]).
  assert (S4 : reachable 2 [GR [ta; tb] [ta; tb] false; GR [tc; td] [tc; td] false]) by (apply (R_step 2 [GR [ta; tb] [ta; tb] false] (GR [tc] [tc] false) [] (GSend td)); [exact S3|cbn; intuition discriminate|reflexivity]).
  assert (S5 : reachable 2 [GR [ta] [ta] false; GR [tc; td] [tc; td] false]) by (apply (R_step 2 [] (GR [ta; tb] [ta; tb] false) [GR [tc; td] [tc; td] false] (GRemove [2; 2])); [exact S4|exact I|reflexivity]).
  assert (S6 : reachable 2 [GR [ta] [ta] false; GR [tc; td; tb] [tc; td; tb] false]) by (apply (R_step 2 [GR [ta] [ta] false] (GR [tc; td] [tc; td] false) [] (GSend tb)); [exact S5|cbn; intuition discriminate|reflexivity]).
  assert (S7 : reachable 2 [GR [ta] [ta] false; GR [tc; td; tb] [tb] true]) by (apply (R_step 2 [GR [ta] [ta] false] (GR [tc; td; tb] [tc; td; tb] false) [] (GCrash [tb])); [exact S6|exact I|reflexivity]).
  assert (S8 : reachable 2 [GR [ta] [ta] false; GR [td; tb] [td; tb] false]) by (apply (R_step 2 [GR [ta] [ta] false] (GR [tc; td; tb] [tb] true) [] (GReinit [9])); [exact S7|exact I|reflexivity]).
  apply (R_step 2 [] (GR [ta] [ta] false) [GR [td; tb] [td; tb] false] (GSend tc)); [exact S8|cbn; intuition discriminate|reflexivity].
Qed.
Example C115_ex : option_map (fun m => map fst m) (systemNorms (fun t => Q2Qc (inject_Z (gtId t))) exGroups []) = Some [7; 9; 2; 4] /\
  systemNorm (fun t => Q2Qc (inject_Z (gtId t))) (fun k => if k =? 4 then (- (1))%Qc else 1%Qc) exGroups = Some (Q2Qc 14) /\
  stepGroup (GRemove [1; 3]) (GR [ta; tc] [ta; tc] false) = Some (GR [ta] [ta] false).
Proof. split; [reflexivity|]. split; [|reflexivity]. vm_compute. reflexivity. Qed.
Example C116_ex : fileCall false [3; 2; 1; 0]%nat [11; 12; 13; 14] = Some [Some 14; Some 13; Some 12; Some 11] /\ fileCall true [0; 1]%nat [11; 12] = Some [Some 11; Some 12] /\
  fileCall true [1; 0]%nat [11; 12] = Some [Some 12; Some 11] /\ Permutation [3; 2; 1; 0]%nat (seq 0 4) /\ NoDup [11; 12; 13; 14].
Proof.
  split; [reflexivity|]. split; [reflexivity|]. split; [reflexivity|]. split; [change (seq 0 4) with (rev [3; 2; 1; 0]%nat); apply Permutation_rev|].
  repeat constructor; cbn; intuition discriminate.
Qed.

Print Assumptions C115_same_order.
Print Assumptions C115_remove.
Print Assumptions C115_norms.
Print Assumptions C115_combined.
Print Assumptions C116_kth_evaluated.
Print Assumptions C116_left_to_right_partial.
Print Assumptions C116_names_refuted.
Print Assumptions C116_interpolation_partial.
Print Assumptions C116_interpolation_refuted.
Print Assumptions C116_no_order_refuted.
Print Assumptions C115_ex_reachable.
Print Assumptions C115_ex.
Print Assumptions C116_ex.
