(** C46, C47, C48, C71: rescheduler and load models. *)
From Verif Require Import Base ManagerModel ManagerProps ReschedModel.
From Coq Require Import QArith Qcanon.
Open Scope Z_scope.
Ltac Zify.zify_post_hook ::= idtac.

(** ** Maps *)
Definition keys (m : lmap) : list (list Z) := map fst m.
Lemma look_In : forall m k g, NoDup (keys m) -> In (k, g) m -> look m k = g.
Proof.
  induction m as [|[a b] m IH]; intros k g ND H; [contradiction|]. cbn [keys map look fst snd] in *. inversion ND as [|x l N1 N2]; subst. destruct (level_eq_dec a k) as [->|NE].
  - destruct H as [H|H]; [congruence|]. exfalso. apply N1. apply in_map_iff. exists (k, g). auto.
  - destruct H as [H|H]; [congruence|auto].
Qed.
Lemma keys_setAt : forall m k g, keys (setAt m k g) = keys m.
Proof. intros m k g. unfold keys, setAt. rewrite map_map. apply map_ext. intros [a b]. cbn [fst snd]. destruct (level_eq_dec a k); auto. Qed.
Lemma look_setAt : forall m k g k', In k (keys m) -> look (setAt m k g) k' = if level_eq_dec k k' then g else look m k'.
Proof.
  intros m k g k'. destruct (level_eq_dec k k') as [<-|NE].
  - induction m as [|[a b] m IH]; intros H; [contradiction|]. cbn [setAt map look fst snd keys] in *. destruct (level_eq_dec a k) as [->|NA]; cbn [fst snd].
    + destruct (level_eq_dec k k); congruence.
    + destruct (level_eq_dec a k); [congruence|]. apply IH. destruct H; [congruence|auto].
  - intros _. induction m as [|[a b] m IH]; auto. cbn [setAt map look fst snd] in *. destruct (level_eq_dec a k) as [->|NA]; cbn [fst snd].
    + destruct (level_eq_dec k k'); [congruence|auto].
    + destruct (level_eq_dec a k'); auto.
Qed.
(** The durations reported for a level. *)
Definition durOf (dur : lmap) (k : list Z) : Z := zsum (map (fun e => if level_eq_dec (fst e) k then snd e else 0) dur).
Lemma durOf_look : forall dur k, NoDup (keys dur) -> durOf dur k = look dur k.
Proof.
  intros dur k. unfold durOf. induction dur as [|[a b] dur IH]; intros ND; auto. cbn [keys map look fst snd zsum fold_right] in *. inversion ND as [|x l N1 N2]; subst. fold (zsum (map (fun e => if level_eq_dec (fst e) k then snd e else 0) dur)).
  destruct (level_eq_dec a k) as [->|]; [|rewrite IH; auto]. assert (Z0 : zsum (map (fun e => if level_eq_dec (fst e) k then snd e else 0) dur) = 0); [|lia]. clear - N1.
  induction dur as [|[a c] dur IH]; auto. cbn [map zsum fold_right fst snd] in *. fold (zsum (map (fun e => if level_eq_dec (fst e) k then snd e else 0) dur)). destruct (level_eq_dec a k) as [->|]; [exfalso; apply N1; now left|]. rewrite IH; [lia|]. intros C. apply N1. now right.
Qed.
Lemma load_move : forall m dur k g h, In k (keys m) ->
  load (setAt m k g) dur h = load m dur h - (if look m k =? h then durOf dur k else 0) + (if g =? h then durOf dur k else 0).
Proof.
  intros m dur k g h Hk. unfold load, durOf. induction dur as [|[a b] dur IH]; [cbn; destruct (_ =? _), (_ =? _); lia|]. cbn [map zsum fold_right fst snd] in *. unfold zsum in IH. rewrite IH, look_setAt by auto.
  destruct (level_eq_dec a k) as [->|NE]; [destruct (level_eq_dec k k); [|congruence]|destruct (level_eq_dec k a); [congruence|]]; destruct (Z.eqb_spec (look m k) h), (Z.eqb_spec g h); try lia; destruct (look m a =? h); lia.
Qed.
Lemma insertZ_In : forall x y l, In y (insertZ x l) <-> y = x \/ In y l.
Proof.
  intros x y l. induction l as [|z l IH]; cbn [insertZ]; [cbn; intuition|]. destruct (x <? z); [cbn; intuition|]. destruct (Z.eqb_spec x z) as [->|]; cbn [In]; [intuition|]. rewrite IH. intuition.
Qed.
Lemma groupsOf_In : forall m g, In g (groupsOf m) <-> In g (map snd m).
Proof.
  intros m g. unfold groupsOf. assert (G : forall l, In g (fold_left (fun l e => insertZ (snd e) l) m l) <-> In g (map snd m) \/ In g l).
  { induction m as [|[a b] m IH]; intros l; cbn [fold_left map snd In]; [tauto|]. rewrite IH, insertZ_In. cbn [snd]. intuition. }
  rewrite G. cbn. tauto.
Qed.

(** ** The choice of an iteration *)
Lemma firstMin_In : forall l x, In (firstMin x l) (x :: l).
Proof. induction l as [|y l IH]; intros x; [now left|]. cbn [firstMin]. specialize (IH (if snd y <? snd x then y else x)). destruct (snd y <? snd x); cbn [In] in *; tauto. Qed.
Lemma lastMax_In : forall l x, In (lastMax x l) (x :: l).
Proof. induction l as [|y l IH]; intros x; [now left|]. cbn [lastMax]. specialize (IH (if snd y <? snd x then x else y)). destruct (snd y <? snd x); cbn [In] in *; tauto. Qed.
Lemma closest_In : forall f avg l x, In (closest f avg x l) (x :: l).
Proof. induction l as [|y l IH]; intros x; [now left|]. cbn [closest]. match goal with |- In (closest _ _ ?z _) _ => specialize (IH z) end. destruct (_ <? _); cbn [In] in *; tauto. Qed.
Lemma choice_spec : forall m dur prognosis avg imb k f, NoDup (keys m) -> choice m dur prognosis avg imb = Some (k, f) ->
  In k (keys m) /\ In f (map snd m) /\ load m dur f + prognosis k < load m dur (look m k).
Proof.
  intros m dur prognosis avg imb k f ND. unfold choice. destruct (loads m dur) as [|x l] eqn:EL; [discriminate|]. destruct (balanced _ _ _); [discriminate|].
  pose proof (firstMin_In l x) as FI. pose proof (lastMax_In l x) as LI. set (fast := firstMin x l) in *. set (slow := lastMax x l) in *. clearbody fast slow. rewrite <- EL in FI, LI.
  destruct (candidates m prognosis (fst slow)) as [|y c] eqn:EC; [discriminate|]. pose proof (closest_In (snd fast) avg c y) as CI. set (t := closest (snd fast) avg y c) in *. clearbody t. rewrite <- EC in CI.
  destruct (Z.ltb_spec (snd fast + snd t) (snd slow)) as [LT|]; [|discriminate]. intros H. injection H as <- <-.
  unfold loads in FI, LI. apply in_map_iff in FI. destruct FI as (gf & EF & GF). apply in_map_iff in LI. destruct LI as (gs & ES & GS). subst fast slow. cbn [fst snd] in *.
  unfold candidates in CI. apply in_map_iff in CI. destruct CI as ([k g] & ET & CI). apply filter_In in CI. destruct CI as [CI CG]. subst t. cbn [fst snd] in *. apply Z.eqb_eq in CG. subst g.
  split; [unfold keys; apply in_map_iff; exists (k, gs); auto|]. split; [now apply groupsOf_In|]. now rewrite (look_In m k gs ND CI).
Qed.

(** ** The moves, carried out one after the other *)
Definition execute (moves m : lmap) : lmap := fold_left (fun m e => setAt m (fst e) (snd e)) moves m.
Lemma execute_app : forall a b m, execute (a ++ b) m = execute b (execute a m).
Proof. intros. unfold execute. apply fold_left_app. Qed.
Lemma setAt_twice : forall m k g g', setAt (setAt m k g) k g' = setAt m k g'.
Proof.
  intros m k g g'. unfold setAt. rewrite map_map. apply map_ext. intros [a b]. cbn [fst snd]. destruct (level_eq_dec a k) as [->|NE]; cbn [fst].
  - destruct (level_eq_dec k k); congruence.
  - destruct (level_eq_dec a k); congruence.
Qed.
Lemma setAt_comm : forall m k g k' g', k <> k' -> setAt (setAt m k g) k' g' = setAt (setAt m k' g') k g.
Proof.
  intros m k g k' g' NE. unfold setAt. rewrite !map_map. apply map_ext. intros [a b]. cbn [fst snd]. destruct (level_eq_dec a k) as [->|N1]; cbn [fst].
  - destruct (level_eq_dec k k'); [congruence|]. cbn [fst]. destruct (level_eq_dec k k); congruence.
  - destruct (level_eq_dec a k') as [->|]; cbn [fst]; [destruct (level_eq_dec k' k); congruence|]. destruct (level_eq_dec a k); congruence.
Qed.
Lemma execute_keep : forall moves m k g, ~ In k (keys moves) -> execute moves (setAt m k g) = setAt (execute moves m) k g.
Proof.
  induction moves as [|[a b] moves IH]; intros m k g NI; auto. cbn [execute fold_left fst snd] in *. fold (execute moves (setAt (setAt m k g) a b)) (execute moves (setAt m a b)). cbn [keys map fst] in NI.
  rewrite setAt_comm by (intros ->; apply NI; now left). apply IH. intros C. apply NI. now right.
Qed.
Lemma moved_In : forall moves k, moved moves k = true <-> In k (keys moves).
Proof.
  intros moves k. unfold moved. rewrite existsb_exists. unfold keys. rewrite in_map_iff. split.
  - intros ([a b] & H & E). cbn [fst] in E. destruct (level_eq_dec a k); [|discriminate]. exists (a, b). auto.
  - intros ([a b] & <- & H). exists (a, b). split; auto. cbn [fst]. destruct (level_eq_dec a a); congruence.
Qed.
Lemma keys_changeMove : forall moves k g, keys (changeMove moves k g) = keys moves.
Proof. induction moves as [|[a b] moves IH]; intros k g; auto. cbn [changeMove fst]. destruct (level_eq_dec a k); cbn [keys map fst]; auto. f_equal. apply IH. Qed.
Lemma execute_change : forall moves m k g, NoDup (keys moves) -> In k (keys moves) -> execute (changeMove moves k g) m = setAt (execute moves m) k g.
Proof.
  induction moves as [|[a b] moves IH]; intros m k g ND HI; [contradiction|]. cbn [keys map fst] in *. inversion ND as [|x l N1 N2]; subst. cbn [changeMove fst]. destruct (level_eq_dec a k) as [->|NE].
  - cbn [execute fold_left fst snd]. fold (execute moves (setAt m k g)) (execute moves (setAt m k b)). rewrite !execute_keep by auto. now rewrite setAt_twice.
  - cbn [execute fold_left fst snd]. fold (execute (changeMove moves k g) (setAt m a b)) (execute moves (setAt m a b)). apply IH; auto. destruct HI; [congruence|auto].
Qed.

Definition inRange (m0 moves : lmap) : Prop := NoDup (keys moves) /\ incl (keys moves) (keys m0) /\ Forall (fun e => In (snd e) (map snd m0)) moves.
Lemma map_snd_setAt : forall m k g, incl (map snd (setAt m k g)) (g :: map snd m).
Proof.
  intros m k g x H. apply in_map_iff in H. destruct H as ([a b] & <- & H). apply in_map_iff in H. destruct H as ([c d] & E & H). cbn [fst snd] in *. destruct (level_eq_dec c k); injection E as -> ->; [now left|right].
  apply in_map_iff. exists (a, b). auto.
Qed.
Lemma changeMove_Forall : forall (P : list Z * Z -> Prop) moves k g, Forall P moves -> P (k, g) -> Forall P (changeMove moves k g).
Proof. intros P moves k g F H. induction F as [|[a b] l F1 F2 IH]; cbn [changeMove fst]; [constructor|]. destruct (level_eq_dec a k) as [->|]; constructor; auto. Qed.
Lemma changeMove_length : forall moves k g, length (changeMove moves k g) = length moves.
Proof. intros moves k g. induction moves as [|[a b] l IH]; cbn [changeMove fst]; auto. destruct (level_eq_dec a k); cbn [length]; auto. Qed.
Lemma iterate_valid : forall m0 dur prognosis avg imb it m moves, NoDup (keys m0) -> keys m = keys m0 -> incl (map snd m) (map snd m0) -> inRange m0 moves ->
  inRange m0 (iterate it m moves dur prognosis avg imb) /\ (length (iterate it m moves dur prognosis avg imb) <= length moves + it)%nat.
Proof.
  intros m0 dur prognosis avg imb. induction it as [|it IH]; intros m moves ND KM IM IR; cbn [iterate]; [split; [auto|lia]|]. destruct (choice m dur prognosis avg imb) as [[k f]|] eqn:EC; [|split; [auto|lia]].
  destruct (choice_spec _ _ _ _ _ _ _ ltac:(now rewrite KM) EC) as (H1 & H2 & H3). destruct IR as (R1 & R2 & R3). destruct (moved moves k) eqn:EM.
  - destruct (IH m (changeMove moves k f) ND KM IM) as [A B]; [|split; [exact A|rewrite changeMove_length in B; lia]]. repeat split; rewrite ?keys_changeMove; auto. apply changeMove_Forall; auto.
  - assert (NI : ~ In k (keys moves)) by (intros C; apply moved_In in C; congruence). destruct (IH (setAt m k f) (moves ++ [(k, f)]) ND) as [A B].
    + now rewrite keys_setAt.
    + intros x Hx. apply map_snd_setAt in Hx. destruct Hx as [<-|Hx]; auto.
    + repeat split.
      * unfold keys. rewrite map_app. cbn [map fst]. apply Permutation_NoDup with (l := k :: keys moves); [apply Permutation_cons_append|constructor; auto].
      * unfold keys. rewrite map_app. cbn [map fst]. apply incl_app; auto. intros x [<-|[]]. unfold keys in KM, H1. now rewrite <- KM.
      * apply Forall_app. split; auto.
    + split; [exact A|]. rewrite app_length in B. cbn [length] in B. lia.
Qed.
Lemma iterate_load : forall m0 dur prognosis avg imb B, NoDup (keys m0) -> (forall k, In k (keys m0) -> prognosis k = durOf dur k) -> (forall k, In k (keys m0) -> 0 <= durOf dur k) ->
  forall it m moves, keys m = keys m0 -> NoDup (keys moves) -> (forall g, load m dur g <= B) ->
  (execute moves m0 = m \/ exists k f, choice m dur prognosis avg imb = Some (k, f) /\ In k (keys moves) /\ execute moves m0 = setAt m k f) ->
  forall g, load (execute (iterate it m moves dur prognosis avg imb) m0) dur g <= B.
Proof.
  intros m0 dur prognosis avg imb B ND HP HD.
  assert (STEP : forall m k f, keys m = keys m0 -> (forall g, load m dur g <= B) -> choice m dur prognosis avg imb = Some (k, f) -> forall g, load (setAt m k f) dur g <= B).
  { intros m k f KM HB EC g. destruct (choice_spec _ _ _ _ _ _ _ ltac:(now rewrite KM) EC) as (H1 & H2 & H3). rewrite load_move by auto. rewrite KM in H1. rewrite (HP k H1) in H3. specialize (HD k H1).
    pose proof (HB g). pose proof (HB (look m k)). destruct (Z.eqb_spec (look m k) g), (Z.eqb_spec f g); subst; lia. }
  induction it as [|it IH]; intros m moves KM NM HB IV g; cbn [iterate].
  - destruct IV as [->|(k & f & EC & _ & ->)]; auto.
  - destruct (choice m dur prognosis avg imb) as [[k f]|] eqn:EC.
    + destruct (moved moves k) eqn:EM.
      * apply moved_In in EM. apply IH; auto; [now rewrite keys_changeMove|]. right. exists k, f. split; auto. split; [now rewrite keys_changeMove|]. rewrite execute_change by auto.
        destruct IV as [->|(k' & f' & EC' & _ & ->)]; auto. injection EC' as <- <-. apply setAt_twice.
      * assert (NI : ~ In k (keys moves)) by (intros C; apply moved_In in C; congruence). destruct IV as [IV|(k' & f' & EC' & IK & _)]; [|injection EC' as <- <-; contradiction]. apply IH.
        -- now rewrite keys_setAt.
        -- unfold keys. rewrite map_app. cbn [map fst]. apply Permutation_NoDup with (l := k :: keys moves); [apply Permutation_cons_append|constructor; auto].
        -- now apply STEP.
        -- left. rewrite execute_app, IV. reflexivity.
    + destruct IV as [->|(k & f & EC' & _)]; auto. discriminate.
Qed.

(** ** C46 *)
(** Every move names a level of the distribution, each level at most once, and a group of the distribution; there are at most as many as allowed. *)
Theorem C46_valid_moves : forall maxIt imb m dur prognosis moves, NoDup (keys m) -> evalMoves maxIt imb m dur prognosis = Some moves ->
  NoDup (map fst moves) /\ Forall (fun e => In (fst e) (map fst m) /\ In (snd e) (map snd m)) moves /\ (length moves <= maxIt)%nat.
Proof.
  intros maxIt imb m dur prognosis moves ND H. unfold evalMoves in H. destruct (length m =? 0)%nat; [discriminate|]. destruct (_ && _); [discriminate|]. injection H as <-.
  destruct (iterate_valid m dur prognosis (average m dur) imb maxIt m [] ND eq_refl (incl_refl _)) as [(A & B & C) D]; [repeat split; try constructor; intros x []|]. split; [exact A|]. split; [|exact D].
  rewrite Forall_forall in *. intros e He. split; [|auto]. apply B. unfold keys. apply in_map. exact He.
Qed.
(** The process manager can carry out the moves: they meet what C45 and C70 ask for. *)
Theorem C46_moves_accepted : forall n L maxIt imb m dur prognosis moves, NoDup (keys m) -> incl (map fst m) (map tlevel L) -> Forall (fun e => 0 <= snd e < Z.of_nat n) m ->
  evalMoves maxIt imb m dur prognosis = Some moves -> goodMoves n L (map (fun e => (fst e, Z.to_nat (snd e))) moves).
Proof.
  intros n L maxIt imb m dur prognosis moves ND HL HN H. destruct (C46_valid_moves _ _ _ _ _ _ ND H) as (A & B & _). split.
  - apply Forall_map. cbn [fst snd]. rewrite Forall_forall in *. intros e He. destruct (B e He) as [B1 B2]. split; [|auto]. apply in_map_iff in B2. destruct B2 as (x & E & Hx). specialize (HN x Hx). lia.
  - rewrite map_map. exact A.
Qed.
(** If the load model foresees the durations that were measured, no group is slower than the slowest group was before the moves. *)
Theorem C46_largest_load : forall maxIt imb m dur prognosis moves B, NoDup (keys m) -> NoDup (keys dur) -> Forall (fun e => 0 <= snd e) dur ->
  (forall k, In k (map fst m) -> prognosis k = look dur k) -> evalMoves maxIt imb m dur prognosis = Some moves ->
  (forall g, load m dur g <= B) -> forall g, load (execute moves m) dur g <= B.
Proof.
  intros maxIt imb m dur prognosis moves B ND NDd HD HP H HB. unfold evalMoves in H. destruct (length m =? 0)%nat; [discriminate|]. destruct (_ && _); [discriminate|]. injection H as <-. apply iterate_load; auto.
  - intros k Hk. rewrite durOf_look by auto. now apply HP.
  - intros k Hk. unfold durOf. clear - HD. induction HD as [|[a b] l H1 H2 IH]; [cbn; lia|]. cbn [map zsum fold_right fst snd] in *. unfold zsum in IH. destruct (level_eq_dec a k); lia.
  - constructor.
Qed.

Definition k0 : list Z := [1; 4].
Definition k1 : list Z := [2; 3].
Definition k2 : list Z := [3; 2].
Definition k3 : list Z := [4; 1].
Definition one : Qc := Q2Qc 1.
Lemma NoDup_levels : NoDup [k0; k1; k2; k3].
Proof. repeat constructor; cbn; intuition discriminate. Qed.
(** A move can name the group that the task is in already: the copy of the distribution is not updated when a move is changed, so that the
    iterations that are left repeat the same choice. *)
Theorem C46_own_group_refuted : exists maxIt m dur moves, NoDup (keys m) /\ evalMoves maxIt one m dur (look dur) = Some moves /\ exists k g, In (k, g) moves /\ In (k, g) m.
Proof.
  exists 10%nat, [(k0, 0); (k1, 0); (k2, 1); (k3, 0)], [(k0, 1); (k1, 4); (k2, 4); (k3, 7)]. eexists. split; [exact NoDup_levels|]. split; [vm_compute; reflexivity|]. exists k0, 0. split; [now left|now left].
Qed.
(** Durations that are shorter than a microsecond on average divide by zero. *)
Theorem C46_short_durations_refuted : exists maxIt m dur, NoDup (keys m) /\ NoDup (keys dur) /\ keys dur = keys m /\ m <> [] /\ Forall (fun e => 0 <= snd e) dur /\ evalMoves maxIt one m dur (look dur) = None.
Proof.
  exists 1%nat, [(k0, 0); (k1, 0); (k2, 1); (k3, 1)], [(k0, 0); (k1, 1); (k2, 1); (k3, 1)]. repeat split; try exact NoDup_levels; try discriminate. repeat constructor; cbn; lia.
Qed.
Example C46_example : exists moves, evalMoves 3 one [(k0, 0); (k1, 0); (k2, 1); (k3, 0)] [(k0, 10); (k1, 20); (k2, 5); (k3, 7)] (look [(k0, 10); (k1, 20); (k2, 5); (k3, 7)]) = Some moves /\ moves = [(k3, 1); (k0, 1)].
Proof. eexists. split; [vm_compute; reflexivity|reflexivity]. Qed.

(** ** C47 *)
(** The average is taken over the tasks instead of the groups: a move is proposed although the slowest group exceeds the average load of the groups
    by less than the threshold asks for. *)
Theorem C47_average_over_tasks_refuted : exists maxIt imb m dur moves, NoDup (keys m) /\ keys dur = keys m /\ evalMoves maxIt imb m dur (look dur) = Some moves /\ moves <> [] /\
  forall g, (Zc (load m dur g) * Zc (Z.of_nat (length (groupsOf m))) < imb * Zc (zsum (map snd dur)))%Qc.
Proof.
  exists 1%nat, (Q2Qc (3 # 2)), [(k0, 0); (k1, 0); (k2, 0); (k3, 1)], [(k0, 6); (k1, 1); (k2, 5); (k3, 10)]. eexists. split; [exact NoDup_levels|]. split; [reflexivity|]. split; [vm_compute; reflexivity|]. split; [discriminate|].
  intros g. assert (L : load [(k0, 0); (k1, 0); (k2, 0); (k3, 1)] [(k0, 6); (k1, 1); (k2, 5); (k3, 10)] g = if 0 =? g then 12 else if 1 =? g then 10 else 0).
  { unfold load. cbn -[Z.eqb Z.add]. destruct (Z.eqb_spec 0 g), (Z.eqb_spec 1 g); subst; cbn; lia. }
  rewrite L. destruct (0 =? g); [|destruct (1 =? g)]; vm_compute; reflexivity.
Qed.
(** The quotient of the slowest load and the average is truncated: nothing is proposed although the slowest group exceeds the average load of the
    groups by more than the threshold and there is a task whose move would help. *)
Theorem C47_truncated_quotient_refuted : exists maxIt imb m dur, NoDup (keys m) /\ keys dur = keys m /\ (0 < maxIt)%nat /\ evalMoves maxIt imb m dur (look dur) = Some [] /\
  exists slow fast k, (imb * Zc (zsum (map snd dur)) < Zc (load m dur slow) * Zc (Z.of_nat (length (groupsOf m))))%Qc /\
    look m k = slow /\ 0 < look dur k /\ load m dur fast + look dur k < load m dur slow.
Proof.
  exists 1%nat, (Q2Qc (6 # 5)), [(k0, 0); (k1, 0); (k2, 1)], [(k0, 110); (k1, 20); (k2, 70)]. split; [repeat constructor; cbn; intuition discriminate|]. split; [reflexivity|]. split; [lia|]. split; [vm_compute; reflexivity|].
  exists 0, 1, k1. split; [vm_compute; reflexivity|]. split; [reflexivity|]. split; vm_compute; reflexivity.
Qed.
Lemma NoDup_insertZ : forall x l, ~ In x l -> length (insertZ x l) = S (length l).
Proof. intros x l. induction l as [|y l IH]; intros H; auto. cbn [insertZ]. destruct (x <? y); auto. destruct (Z.eqb_spec x y) as [->|]; [exfalso; apply H; now left|]. cbn [length]. rewrite IH; auto. intros C. apply H. now right. Qed.
(** With one task in every group the average is the one that is meant. *)
Theorem C47_one_task_per_group : forall m dur, NoDup (map snd m) -> average m dur = zsum (map snd dur) / Z.of_nat (length (groupsOf m)).
Proof.
  intros m dur ND. unfold average. do 2 f_equal. unfold groupsOf. assert (G : forall l, NoDup (map snd m) -> (forall x, In x l -> ~ In x (map snd m)) -> length (fold_left (fun l e => insertZ (snd e) l) m l) = (length l + length m)%nat).
  { clear. induction m as [|[a b] m IH]; intros l ND H; cbn [fold_left length map snd] in *; [lia|]. inversion ND as [|x y N1 N2]; subst. rewrite IH; auto.
    - rewrite NoDup_insertZ; [lia|]. intros C. apply (H b C). now left.
    - intros x Hx. apply insertZ_In in Hx. destruct Hx as [->|Hx]; auto. intros C. apply (H x Hx). now right. }
  symmetry. rewrite G; auto.
Qed.
Example C47_example : average [(k0, 0); (k1, 1)] [(k0, 10); (k1, 20)] = 15 /\ average [(k0, 0); (k1, 1); (k2, 1)] [(k0, 10); (k1, 20); (k2, 30)] = 20.
Proof. split; reflexivity. Qed.

(** ** C48 *)
Definition lastN (n : nat) (l : list Z) : list Z := skipn (length l - n) l.
Definition reported (k : list Z) (history : list (list Z * Z)) : list Z := map snd (filter (fun r => if level_eq_dec (fst r) k then true else false) history).
Lemma windowOf_set : forall w k x k', windowOf (setWindow w k x) k' = if level_eq_dec k k' then x else windowOf w k'.
Proof.
  induction w as [|[a b] w IH]; intros k x k'; cbn [setWindow windowOf fst snd].
  - destruct (level_eq_dec k k'); auto.
  - destruct (level_eq_dec a k) as [->|NE]; cbn [windowOf fst snd].
    + destruct (level_eq_dec k k'); auto.
    + rewrite IH. destruct (level_eq_dec a k') as [->|]; auto. destruct (level_eq_dec k k'); congruence.
Qed.
Lemma windowOf_new : forall tasks k, windowOf (newModel tasks) k = [].
Proof.
  intros tasks k. unfold newModel. assert (G : forall w, windowOf w k = [] -> windowOf (fold_left (fun w k => setWindow w k []) tasks w) k = []); [|now apply G].
  induction tasks as [|t tasks IH]; intros w H; auto. cbn [fold_left]. apply IH. rewrite windowOf_set. destruct (level_eq_dec t k); auto.
Qed.
Lemma lastN_snoc : forall n l x, (1 <= n)%nat -> lastN n (l ++ [x]) = (if (n <=? length (lastN n l))%nat then tl (lastN n l) else lastN n l) ++ [x].
Proof.
  intros n l x Hn. unfold lastN. rewrite app_length, skipn_length. cbn [length]. destruct (Nat.leb_spec n (length l - (length l - n))) as [H|H].
  - rewrite skipn_app. replace (length l + 1 - n - length l)%nat with 0%nat by lia. cbn [skipn]. f_equal. replace (length l + 1 - n)%nat with (S (length l - n)) by lia. clear. generalize (length l - n)%nat. revert l.
    assert (G : forall i (l : list Z), skipn (S i) l = tl (skipn i l)) by (induction i as [|i IH]; intros [|y l]; auto; exact (IH l)). intros l i. apply G.
  - replace (length l + 1 - n)%nat with 0%nat by lia. replace (length l - n)%nat with 0%nat by lia. reflexivity.
Qed.
(** After any history the window of a level is the last [n] durations reported for it, the newest last. *)
Theorem C48_window : forall n tasks history k, (1 <= n)%nat -> windowOf (fold_left (addDuration n) history (newModel tasks)) k = lastN n (reported k history).
Proof.
  intros n tasks history k Hn. induction history as [|[a b] history IH] using rev_ind; [cbn [fold_left reported filter map]; unfold lastN; rewrite windowOf_new; reflexivity|].
  rewrite fold_left_app. cbn [fold_left]. unfold addDuration at 1. cbn [fst snd]. rewrite windowOf_set. unfold reported. rewrite filter_app, map_app. cbn [filter fst]. fold (reported k history). destruct (level_eq_dec a k) as [->|NE].
  - cbn [map snd]. rewrite lastN_snoc by auto. now rewrite IH.
  - cbn [map]. now rewrite app_nil_r.
Qed.
Lemma toInt_id : forall x, 0 <= x < 2 ^ 31 -> toInt x = x.
Proof. intros x H. unfold toInt. rewrite Z.mod_small; lia. Qed.
Lemma accumulate_sum : forall d a, 0 <= a -> Forall (fun x => 0 <= x) d -> a + zsum d < 2 ^ 31 -> fold_left (fun a x => toInt (a + x)) d a = a + zsum d.
Proof.
  induction d as [|x d IH]; intros a Ha F H; cbn [fold_left zsum fold_right] in *; [lia|]. inversion F; subst. fold (zsum d) in *.
  assert (0 <= zsum d) by (clear - H3; induction H3 as [|y l H1 H2 IH]; cbn; [lia|unfold zsum in IH; lia]). rewrite toInt_id by lia. rewrite IH; auto; lia.
Qed.
(** The prognosis is the average of the window, rounded down, as long as the sum of the window fits into an int. *)
Theorem C48_prognosis : forall n tasks history k, (1 <= n)%nat -> Forall (fun r => 0 <= snd r) history -> reported k history <> [] -> zsum (lastN n (reported k history)) < 2 ^ 31 ->
  let used := Z.min (Z.of_nat n) (Z.of_nat (length (reported k history))) in
  exists p, prognosisOf (fold_left (addDuration n) history (newModel tasks)) k = Some p /\ p * used <= zsum (lastN n (reported k history)) < (p + 1) * used.
Proof.
  intros n tasks history k Hn HF NE HS used. unfold prognosisOf. rewrite C48_window by auto. set (d := lastN n (reported k history)) in *.
  assert (LD : Z.of_nat (length d) = used). { unfold d, lastN, used. rewrite skipn_length. lia. }
  assert (Hl : (0 < length (reported k history))%nat) by (destruct (reported k history); [congruence|cbn; lia]).
  assert (PD : 0 < used) by (unfold used; lia).
  assert (FD : Forall (fun x => 0 <= x) d).
  { assert (FR : Forall (fun x => 0 <= x) (reported k history)) by (unfold reported; apply Forall_map, Forall_forall; intros r Hr; apply filter_In in Hr; rewrite Forall_forall in HF; now apply HF).
    unfold d, lastN. rewrite <- (firstn_skipn (length (reported k history) - n) (reported k history)) in FR. now apply Forall_app in FR. }
  assert (ZD : 0 <= zsum d) by (clear - FD; induction FD as [|y l H1 H2 IH]; cbn; [lia|unfold zsum in IH; lia]).
  exists (zsum d / used). split.
  - destruct d as [|x d'] eqn:ED; [cbn in LD; lia|]. rewrite <- ED in *. unfold accumulateInt. rewrite accumulate_sum by (auto; lia). rewrite LD, Z.add_0_l. f_equal. apply Z.quot_div_nonneg; lia.
  - pose proof (Z.mul_div_le (zsum d) used PD). pose proof (Z.mul_succ_div_gt (zsum d) used PD). lia.
Qed.
(** Two durations of 20 minutes: the sum is computed as an int and the prognosis is negative. *)
Theorem C48_int_sum_refuted : exists n tasks history k p, (1 <= n)%nat /\ Forall (fun r => snd r = 1200 * 1000 * 1000) history /\ reported k history <> [] /\
  prognosisOf (fold_left (addDuration n) history (newModel tasks)) k = Some p /\ p < 0.
Proof.
  exists 2%nat, [k0], [(k0, 1200000000); (k0, 1200000000)], k0. eexists. split; [lia|]. split; [repeat constructor|]. split; [discriminate|]. split; [vm_compute; reflexivity|lia].
Qed.
(** Before the first report there is no prognosis (the documentation promises zero). *)
Theorem C48_no_history_refuted : forall tasks k, prognosisOf (newModel tasks) k = None.
Proof. intros tasks k. unfold prognosisOf. now rewrite windowOf_new. Qed.
Example C48_example : prognosisOf (fold_left (addDuration 2) [(k0, 10); (k1, 5); (k0, 30); (k0, 41)] (newModel [k0; k1])) k0 = Some 35.
Proof. reflexivity. Qed.

(** ** C71: AveragingLoadModel *)
Definition afterHistory (h : list Z) : list Z * list Z := fold_left addAveraging h ([], []).
(** The file and the memory have all durations in their order; at most [writeEvery] are in memory, and at least one. *)
Theorem C71_nothing_lost : forall h, destroyAveraging (afterHistory h) = h /\ (length (fst (afterHistory h)) <= writeEvery)%nat /\ (h <> [] -> fst (afterHistory h) <> []).
Proof.
  intros h. unfold afterHistory, destroyAveraging. induction h as [|x h IH] using rev_ind; [cbn; split; [auto|split; [lia|congruence]]|]. rewrite fold_left_app. cbn [fold_left]. destruct (fold_left addAveraging h ([], [])) as [d f]. cbn [fst snd] in *. destruct IH as (E & L & _).
  unfold addAveraging. cbn [fst snd]. destruct (Nat.ltb_spec writeEvery (length (d ++ [x]))) as [H|H]; cbn [fst snd].
  - split; [|split].
    + rewrite <- app_assoc, firstn_skipn, app_assoc, E. reflexivity.
    + rewrite skipn_length, app_length. cbn [length]. unfold writeEvery in *. lia.
    + intros _ C. apply (f_equal (@length Z)) in C. rewrite skipn_length in C. cbn [length] in C. lia.
  - split; [rewrite app_assoc, E; reflexivity|]. split; [lia|]. intros _ C. destruct d; discriminate.
Qed.
(** The expected load is the average of the last durations only: with 51 reports only the newest counts. *)
Theorem C71_average_of_all_refuted : exists h, evalAveraging (fst (afterHistory h)) = Zc 1000 /\ (length h = 51)%nat /\ Forall (fun x => x = 10 \/ x = 1000) h /\ averageOfFile (destroyAveraging (afterHistory h)) = 29.
Proof.
  exists (repeat 10 50 ++ [1000]). split; [apply Qc_is_canon; vm_compute; reflexivity|]. split; [reflexivity|]. split; [|reflexivity].
  apply Forall_app. split; [apply Forall_forall; intros x Hx; apply repeat_spec in Hx; auto|constructor; [now right|constructor]].
Qed.
(** How many durations are averaged. *)
Theorem C71_window : forall h, h <> [] -> fst (afterHistory h) = lastN ((length h - 1) mod writeEvery + 1) h.
Proof.
  intros h HN. destruct (C71_nothing_lost h) as (E & L & N). specialize (N HN). unfold destroyAveraging in E. set (s := afterHistory h) in *.
  assert (M : exists q, length (snd s) = (q * writeEvery)%nat).
  { unfold s, afterHistory. clear. induction h as [|x h IH] using rev_ind; [exists 0%nat; reflexivity|]. rewrite fold_left_app. cbn [fold_left]. destruct (fold_left addAveraging h ([], [])) as [d f]. cbn [fst snd] in IH. destruct IH as [q IH]. unfold addAveraging. cbn [fst snd].
    destruct (Nat.ltb_spec writeEvery (length (d ++ [x]))) as [H|H]; cbn [snd]; [|eauto]. exists (S q). rewrite app_length, firstn_length_le, IH by lia. cbn [Nat.mul]. lia. }
  destruct M as [q M]. assert (LH : length h = (q * writeEvery + length (fst s))%nat) by (rewrite <- M, <- app_length, E; reflexivity).
  assert (L1 : (1 <= length (fst s))%nat) by (destruct (fst s); [congruence|cbn; lia]).
  replace ((length h - 1) mod writeEvery + 1)%nat with (length (fst s)).
  - unfold lastN. replace (length h - length (fst s))%nat with (length (snd s)) by lia. rewrite <- E at 1. rewrite skipn_app, skipn_all, Nat.sub_diag. reflexivity.
  - rewrite LH. replace (q * writeEvery + length (fst s) - 1)%nat with (length (fst s) - 1 + q * writeEvery)%nat by lia. rewrite Nat.mod_add by (unfold writeEvery; lia). rewrite Nat.mod_small by lia. lia.
Qed.
Example C71_example : fst (afterHistory (repeat 7 51 ++ [3])) = [7; 3].
Proof. reflexivity. Qed.

Print Assumptions C46_valid_moves.
Print Assumptions C46_moves_accepted.
Print Assumptions C46_largest_load.
Print Assumptions C46_own_group_refuted.
Print Assumptions C46_short_durations_refuted.
Print Assumptions C47_average_over_tasks_refuted.
Print Assumptions C47_truncated_quotient_refuted.
Print Assumptions C47_one_task_per_group.
Print Assumptions C48_window.
Print Assumptions C48_prognosis.
Print Assumptions C48_int_sum_refuted.
Print Assumptions C48_no_history_refuted.
Print Assumptions C71_nothing_lost.
Print Assumptions C71_average_of_all_refuted.
Print Assumptions C71_window.
