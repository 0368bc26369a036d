(** C08, C09, C57: sets of level vectors. *)
From Verif Require Import Base TensorProofs PartitionProofs LevelSetsModel LevelSetsProofs.

(** C08: exactly the dominated levels ... *)
Theorem C08_downset_members : forall l k,
  In k (getDownSet l) <-> length k = length l /\ forall d, (d < length l)%nat -> 1 <= nth d k 0 <= nth d l 0.
Proof.
  intros. rewrite getDownSet_In, (Forall2_nth_iff _ _ _ 0 0). split; intros [H1 H2]; auto.
Qed.

(** ... each once and in ascending lexicographic order ... *)
Theorem C08_downset_sorted : forall l, StronglySorted lexlt (getDownSet l).
Proof. intros. apply downSetRec_sorted. Qed.

Theorem C08_downset_nodup : forall l, NoDup (getDownSet l).
Proof. intros. apply lexsorted_NoDup, C08_downset_sorted. Qed.

(** ... and as many as reserved. *)
Theorem C08_downset_count : forall l, Forall (fun x => 0 <= x) l ->
  Z.of_nat (length (getDownSet l)) = fold_left Z.mul l 1.
Proof.
  intros l H. rewrite getDownSet_cart, cart_length, map_map.
  change (fold_left Z.mul l 1) with (PartitionModel.commSize l). rewrite commSize_prod.
  f_equal. induction H; simpl; auto. f_equal; auto. rewrite zrange_length. lia.
Qed.

(** C09: membership as stated by the mixed-sum conditions over all selections of at least two dimensions. *)
Theorem C09_truncated_members : forall lmax lmin v,
  lmax <> [] -> Forall2 Z.le lmin lmax ->
  let n := minElement (map2 Z.sub lmax lmin) in
  let rlmin := map (fun x => x - n) lmax in
  (In v (truncatedLevels lmax lmin) <->
   Forall2 (fun lm x => 1 <= x <= lm) lmax v /\
   forall m, length m = length lmax -> (2 <= countTrue m)%nat -> maskSum m v <= maskSum m rlmin + n).
Proof.
  intros lmax lmin v Hne F n rlmin. rewrite truncated_closed_form by auto. fold n.
  pose proof (minElement_diff_nonneg lmax lmin Hne F) as Hn. fold n in Hn.
  fold rlmin. assert (Lr : length rlmin = length lmax) by apply map_length.
  split.
  - intros [L [P E]]. split.
    + pose proof (Forall2_excess v rlmin n ltac:(lia) E) as FE. unfold rlmin in FE. clearbody n. clear -P FE L.
      revert lmax FE L. induction P; intros [|a lm] FE L; simpl in *; try lia; constructor; inv FE; auto.
      lia.
    + intros m Hm _. pose proof (maskSum_excess m v rlmin ltac:(lia) ltac:(lia)). lia.
  - intros [FW M]. assert (Lw : length v = length lmax) by (apply Forall2_length in FW; lia).
    split; auto. split.
    + clear -FW. induction FW; constructor; auto. lia.
    + destruct (Nat.lt_ge_cases (countTrue (posMask v rlmin)) 2) as [C|C].
      * apply excess_few; auto; [lia|]. unfold rlmin. clearbody n. clear -FW.
        induction FW; simpl; constructor; auto. lia.
      * rewrite <- posMask_excess by lia. specialize (M (posMask v rlmin)).
        rewrite posMask_length in M by lia. specialize (M Lr C). lia.
Qed.

(** C09: closed form. The level may exceed the (reduced) minimum level by [n] in total. *)
Theorem C09_truncated_closed_form : forall lmax lmin v,
  lmax <> [] -> Forall2 Z.le lmin lmax ->
  let n := minElement (map2 Z.sub lmax lmin) in
  (In v (truncatedLevels lmax lmin) <->
   length v = length lmax /\ Forall (fun x => 1 <= x) v /\
   zsum (map2 (fun x m => Z.max 0 (x - m)) v (map (fun x => x - n) lmax)) <= n).
Proof. exact truncated_closed_form. Qed.

Theorem C09_truncated_sorted : forall lmax lmin, StronglySorted lexlt (truncatedLevels lmax lmin).
Proof. intros. apply truncRec_sorted. Qed.

Theorem C09_truncated_downward_closed : forall lmax lmin v k,
  lmax <> [] -> Forall2 Z.le lmin lmax ->
  In v (truncatedLevels lmax lmin) -> Forall2 (fun x y => 1 <= x <= y) k v -> In k (truncatedLevels lmax lmin).
Proof.
  intros lmax lmin v k Hne F Hv Hk. rewrite truncated_closed_form in * by auto.
  destruct Hv as [L [P E]]. pose proof (Forall2_length _ _ _ _ _ Hk) as Lk. split; [lia|]. split.
  - clear -Hk. induction Hk; constructor; auto. lia.
  - eapply Z.le_trans; [|exact E]. generalize (map (fun x => x - minElement (map2 Z.sub lmax lmin)) lmax).
    clear -Hk. unfold excess. induction Hk; intros [|m r]; simpl; try lia.
    rewrite !zsum_cons. specialize (IHHk r). lia.
Qed.

Example C08_ex : getDownSet [2; 3] = [[1; 1]; [1; 2]; [1; 3]; [2; 1]; [2; 2]; [2; 3]].
Proof. reflexivity. Qed.
Example C09_ex : truncatedLevels [3; 3; 4] [2; 1; 1] =
  [[1; 1; 1]; [1; 1; 2]; [1; 1; 3]; [1; 1; 4]; [1; 2; 1]; [1; 2; 2]; [1; 2; 3]; [1; 2; 4]; [1; 3; 1]; [1; 3; 2];
   [1; 3; 3]; [2; 1; 1]; [2; 1; 2]; [2; 1; 3]; [2; 1; 4]; [2; 2; 1]; [2; 2; 2]; [2; 2; 3]; [2; 2; 4]; [2; 3; 1]; [2; 3; 2];
   [2; 3; 3]; [3; 1; 1]; [3; 1; 2]; [3; 1; 3]; [3; 2; 1]; [3; 2; 2]; [3; 2; 3]].
Proof. reflexivity. Qed.
Example C09_ex_hyp : Forall2 Z.le [2; 1; 1] [3; 3; 4].
Proof. repeat constructor; lia. Qed.

(** Number of steps the generator needs to reach a level. *)
Definition genVal (u c : list Z) : Z := lin (rev u) (map (fun x => x - 1) (rev c)).

Lemma generatorStep_val : forall us cs, Forall2 (fun u c => 1 <= c <= u) us cs ->
  lin us (map (fun x => x - 1) cs) + 1 < zprod us ->
  lin us (map (fun x => x - 1) (generatorStep us cs)) = lin us (map (fun x => x - 1) cs) + 1 /\
  Forall2 (fun u c => 1 <= c <= u) us (generatorStep us cs).
Proof.
  induction 1 as [|u c us cs Hc F IH]; intros Hlt.
  - simpl in *. lia.
  - cbn [generatorStep]. destruct (Z.ltb_spec c u).
    + split; [simpl; ring|]. constructor; auto. lia.
    + assert (c = u) by lia. subst c. cbn [map lin] in *.
      change (zprod (u :: us)) with (u * zprod us) in Hlt.
      destruct IH as [I1 I2]; [nia|]. split; [rewrite I1; ring|]. constructor; auto. lia.
Qed.

Lemma last_val : forall l, lin l (map (fun x => x - 1) l) + 1 = zprod l.
Proof.
  induction l as [|x l IH]; [reflexivity|]. cbn [map lin].
  change (zprod (x :: l)) with (x * zprod l). rewrite <- IH. ring.
Qed.

(** The first entry cannot be reached in all dimensions before the last level. *)
Definition firstNotPassed (u : list Z) : Prop :=
  (exists d, (d < length u)%nat /\ nth d u 0 < nth 0 u 0) \/
  (forall d, (d < length u)%nat -> nth d u 0 = nth 0 u 0).

Lemma generatorFinished_false : forall u c, firstNotPassed u ->
  Forall2 (fun u c => 1 <= c <= u) u c -> genVal u c + 1 < zprod u -> generatorFinished u c = false.
Proof.
  intros u c H F V. destruct (generatorFinished u c) eqn:E; auto. exfalso.
  unfold generatorFinished in E. rewrite forallb_forall in E.
  pose proof (proj1 (Forall2_nth_iff _ _ _ 0 0 _ _) F) as [L N].
  assert (A : forall d, (d < length u)%nat -> nth d c 0 = nth 0 u 0).
  { intros d Hd. apply Z.eqb_eq. apply E. apply nth_In. lia. }
  destruct H as [[d [Hd Hlt]]|H].
  - specialize (N d Hd). cbv beta in N. rewrite A in N by auto. lia.
  - assert (Ec : c = u).
    { apply nth_ext_Z; [lia|]. intros i Hi. rewrite A by lia. symmetry. apply H. lia. }
    subst c. unfold genVal in V. pose proof (last_val (rev u)) as LV. rewrite zprod_rev in LV. lia.
Qed.

Lemma generatorRun_vals : forall u k c, firstNotPassed u ->
  Forall2 (fun u c => 1 <= c <= u) u c -> genVal u c + Z.of_nat k < zprod u ->
  map (genVal u) (generatorRun u c k) = zseq (genVal u c + 1) k /\
  Forall (fun v => Forall2 (fun u c => 1 <= c <= u) u v) (generatorRun u c k).
Proof.
  induction k as [|k IH]; intros c H F V; [split; [reflexivity|constructor]|].
  cbn [generatorRun]. cbv zeta.
  assert (E : generatorNext u c = rev (generatorStep (rev u) (rev c))).
  { unfold generatorNext. rewrite generatorFinished_false; auto. lia. }
  destruct (generatorStep_val (rev u) (rev c) (Forall2_rev' _ _ _ _ _ F)) as [S1 S2].
  { rewrite zprod_rev. unfold genVal in V. lia. }
  assert (VN : genVal u (generatorNext u c) = genVal u c + 1).
  { rewrite E. unfold genVal. rewrite rev_involutive. exact S1. }
  assert (FN : Forall2 (fun u c => 1 <= c <= u) u (generatorNext u c)).
  { rewrite E. apply Forall2_rev' in S2. now rewrite rev_involutive in S2. }
  destruct (IH (generatorNext u c) H FN) as [I1 I2]; try lia.
  cbn [map zseq]. rewrite I1, VN. split; auto.
Qed.

Lemma generatorFirst : forall u, u <> [] -> Forall (fun x => 1 <= x) u ->
  generatorNext u (generatorInit u) = repeat 1 (length u).
Proof.
  intros u Hne P. destruct (exists_last Hne) as [u' [x ->]].
  assert (IE : generatorInit (u' ++ [x]) = repeat 1 (length u') ++ [0]).
  { unfold generatorInit. rewrite app_length. cbn [length].
    replace (length u' + 1 - 1)%nat with (length u') by lia.
    rewrite repeat_app. cbn [repeat].
    generalize (repeat 1 (length u')) (repeat_length 1 (length u')). intros r Hr. rewrite <- Hr. clear.
    induction r; simpl; auto. now rewrite IHr. }
  rewrite IE. unfold generatorNext.
  assert (FE : generatorFinished (u' ++ [x]) (repeat 1 (length u') ++ [0]) = false).
  { unfold generatorFinished. rewrite forallb_app. cbn [forallb].
    assert (1 <= nth 0 (u' ++ [x]) 0).
    { rewrite Forall_forall in P. apply P. apply nth_In. rewrite app_length. simpl. lia. }
    destruct (Z.eqb_spec 0 (nth 0 (u' ++ [x]) 0)); [lia|]. now rewrite andb_false_r. }
  rewrite FE. rewrite !rev_app_distr. cbn [rev app generatorStep].
  apply Forall_app in P as [_ Px]. inv Px. destruct (Z.ltb_spec 0 x); [|lia].
  cbn [rev]. rewrite rev_involutive, app_length, repeat_app. reflexivity.
Qed.

Lemma genVal_ones : forall u, genVal u (repeat 1 (length u)) = 0.
Proof.
  intros u. unfold genVal. assert (R : forall n, rev (repeat 1 n) = repeat 1 n).
  { induction n; simpl; auto. rewrite IHn. clear. induction n; simpl; auto. now rewrite IHn. }
  rewrite R. rewrite <- (rev_length u). generalize (rev u). clear.
  induction l; simpl; auto. rewrite IHl. ring.
Qed.

(** C57: the level generator hands out every dominated level exactly once, provided it cannot mistake an intermediate
    level for the last one. *)
Theorem C57_generator_enumerates_partial : forall u,
  u <> [] -> Forall (fun x => 1 <= x) u ->
  (exists d, (d < length u)%nat /\ nth d u 0 < nth 0 u 0) \/
  (forall d, (d < length u)%nat -> nth d u 0 = nth 0 u 0) ->
  Permutation (generatorRun u (generatorInit u) (Z.to_nat (generatorTotal u))) (getDownSet u).
Proof.
  intros u Hne P H. unfold generatorTotal. change (fold_left Z.mul u 1) with (PartitionModel.commSize u).
  rewrite commSize_prod.
  assert (PP : 0 < zprod u) by (apply zprod_pos; eapply Forall_impl; [|exact P]; simpl; intros; lia).
  assert (F1 : Forall2 (fun u c => 1 <= c <= u) u (repeat 1 (length u))).
  { clear -P. induction P; simpl; constructor; auto. lia. }
  replace (Z.to_nat (zprod u)) with (S (Z.to_nat (zprod u - 1))) by lia.
  cbn [generatorRun]. cbv zeta. rewrite generatorFirst by auto.
  destruct (generatorRun_vals u (Z.to_nat (zprod u - 1)) _ H F1) as [E A].
  { rewrite genVal_ones. lia. }
  set (run := generatorRun u (repeat 1 (length u)) (Z.to_nat (zprod u - 1))) in *.
  assert (ND : NoDup (repeat 1 (length u) :: run)).
  { apply (NoDup_map_inv (genVal u)). cbn [map]. rewrite E, genVal_ones. constructor.
    - rewrite zseq_In. lia.
    - apply zseq_NoDup. }
  apply NoDup_Permutation_bis; auto.
  - cbn [length]. assert (LR : length run = Z.to_nat (zprod u - 1)).
    { rewrite <- (map_length (genVal u)), E. apply zseq_length. }
    rewrite LR. pose proof (C08_downset_count u) as C.
    change (fold_left Z.mul u 1) with (PartitionModel.commSize u) in C. rewrite commSize_prod in C.
    specialize (C ltac:(eapply Forall_impl; [|exact P]; simpl; intros; lia)). lia.
  - intros v Hv. apply getDownSet_In. destruct Hv as [<-|Hv]; auto.
    rewrite Forall_forall in A. auto.
Qed.

(** In general it does not: for maximum level (1,2) the level (1,2) is never handed out, because the end is detected by
    comparing every entry with the first maximum level (LevelSetUtils.hpp:134). *)
Theorem C57_generator_enumerates_refuted :
  exists u k, u <> [] /\ Forall (fun x => 1 <= x) u /\ In k (getDownSet u) /\
    forall n, ~ In k (generatorRun u (generatorInit u) n).
Proof.
  exists [1; 2], [1; 2]. split; [discriminate|]. split; [repeat constructor; lia|].
  split; [simpl; auto|]. intros n.
  assert (G : forall n, ~ In [1; 2] (generatorRun [1; 2] [1; 1] n)).
  { induction n0; [simpl; tauto|]. cbn [generatorRun]. cbv zeta.
    change (generatorNext [1; 2] [1; 1]) with [1; 1]. intros [E|E]; [discriminate|auto]. }
  destruct n; [simpl; tauto|]. cbn [generatorRun]. cbv zeta.
  change (generatorNext [1; 2] (generatorInit [1; 2])) with [1; 1].
  intros [E|E]; [discriminate|]. exact (G n E).
Qed.

Example C57_ex : generatorRun [3; 2] (generatorInit [3; 2]) 6 = [[1; 1]; [1; 2]; [2; 1]; [2; 2]; [3; 1]; [3; 2]].
Proof. reflexivity. Qed.

Print Assumptions C08_downset_members.
Print Assumptions C08_downset_sorted.
Print Assumptions C08_downset_nodup.
Print Assumptions C08_downset_count.
Print Assumptions C09_truncated_members.
Print Assumptions C09_truncated_closed_form.
Print Assumptions C09_truncated_sorted.
Print Assumptions C09_truncated_downward_closed.
Print Assumptions C57_generator_enumerates_partial.
Print Assumptions C57_generator_enumerates_refuted.
