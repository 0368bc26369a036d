(** C104, C105: what the communicators are after the recovery from failed processes. *)
From Verif Require Import Base RankModel RankProps CommRecoveryModel CommRecoveryProofs.
Open Scope Z_scope.
Ltac Zify.zify_post_hook ::= idtac.

(** The living processes that belong to no group. *)
Definition waiting (s : ftState) (p : Z) : Prop := In p (fSpare s) /\ ~ In p (fWorld s).
Definition numWaiting (s : ftState) : nat := length (filter (fun p => negb (isIn p (fWorld s))) (fSpare s)).
Definition numDead (dead : Z -> bool) (s : ftState) : nat := length (filter dead (fWorld s)).
(** Group [g] of [nprocs] processes: the world ranks [g * nprocs], ..., [g * nprocs + nprocs - 1]. *)
Definition memberOf (nprocs : Z) (s : ftState) (g j : Z) : Z := at_ (fWorld s) (g * nprocs + j).
Definition hasDead (nprocs : Z) (dead : Z -> bool) (s : ftState) (g : Z) : Prop := exists j, 0 <= j < nprocs /\ dead (memberOf nprocs s g j) = true.

Lemma nth_at : forall l r, at_ l r = nth (Z.to_nat r) l 0. Proof. reflexivity. Qed.
Lemma members_eq : forall n s G g, 0 < n -> zlen (fWorld s) = G * n + 1 -> 0 <= g < G ->
  map (memberOf n s g) (zrange 0 n) = block n (fWorld s) g.
Proof.
  intros n s G g Hn HL Hg. apply at_ext; [rewrite zlen_map, zlen_zrange, (block_len n (fWorld s) G); lia|]. rewrite zlen_map, zlen_zrange by lia. intros j Hj.
  rewrite at_map by (rewrite zlen_zrange; lia). rewrite at_zrange by lia. rewrite (block_at n (fWorld s) G) by (auto; lia). reflexivity.
Qed.
Lemma hasDead_iff : forall n dead s G g, 0 < n -> zlen (fWorld s) = G * n + 1 -> 0 <= g < G -> (groupFailed n dead (fWorld s) g = true <-> hasDead n dead s g).
Proof.
  intros n dead s G g Hn HL Hg. unfold groupFailed, hasDead. rewrite existsb_exists, <- (members_eq n s G g Hn HL Hg). split.
  - intros (x & Hx & HD). apply in_map_iff in Hx. destruct Hx as (j & <- & Hj). apply zrange_In in Hj. eauto.
  - intros (j & Hj & HD). eexists. split; [|exact HD]. apply in_map_iff. exists j. split; [reflexivity|now apply zrange_In].
Qed.

(** In every state between two recoveries: the world consists of complete groups and the manager, without repetition; the manager is the last process
    of both communicators; every worker's local communicator is its group; the manager has one entry for every group, with the rank of the group's
    master in the global communicator; and its list of reusable processes is exactly the list of the waiting ones, by their rank. *)
Theorem C104_between_recoveries : forall ngroup nprocs s, 0 < ngroup -> 0 < nprocs -> ftReachable ngroup nprocs s ->
  exists G, 0 < G /\ Z.of_nat (length (fWorld s)) = G * nprocs + 1 /\ NoDup (fWorld s) /\ NoDup (fSpare s) /\ (forall p, In p (fWorld s) -> In p (fSpare s)) /\
    last (fWorld s) 0 = last (fSpare s) 0 /\
    (forall r, 0 <= r < G * nprocs + 1 -> fRank s (at_ (fWorld s) r) = r) /\
    (forall g j, 0 <= g < G -> 0 <= j < nprocs -> fLocal s (memberOf nprocs s g j) = map (memberOf nprocs s g) (zrange 0 nprocs)) /\
    length (fMasters s) = Z.to_nat G /\
    (forall i, 0 <= i < G -> nth (Z.to_nat (nth (Z.to_nat i) (fMasters s) 0)) (map (at_ (fWorld s)) (globalComm G nprocs (Some (G * nprocs)))) 0 = memberOf nprocs s i 0) /\
    (forall r, In r (fReusable s) <-> 0 <= r < Z.of_nat (length (fSpare s)) /\ waiting s (at_ (fSpare s) r)) /\ NoDup (fReusable s).
Proof.
  intros ngroup n s HG Hn HR. pose proof (reach_inv ngroup n s HG Hn HR) as I. destruct (i_len n s I) as (G & HGp & HL & HM). exists G.
  assert (HLs : forall l : list Z, zlen l > 0 -> last l 0 = at_ l (zlen l - 1)).
  { induction l as [|x l IH]; intros H; [unfold zlen in H; cbn in H; lia|]. rewrite zlen_cons in *. destruct l as [|y l]; [reflexivity|].
    change (last (x :: y :: l) 0) with (last (y :: l) 0). rewrite IH by (rewrite zlen_cons; pose proof (zlen_nonneg l); lia).
    rewrite (at_cons x) by (rewrite zlen_cons; pose proof (zlen_nonneg l); lia). f_equal. lia. }
  split; [exact HGp|]. split; [exact HL|]. split; [exact (i_ndw n s I)|]. split; [exact (i_nds n s I)|]. split; [exact (i_incl n s I)|].
  split.
  { rewrite HLs by nia. destruct (i_last n s I) as (l & ->). rewrite last_last. reflexivity. }
  split.
  { intros r Hr. rewrite (i_rank n s I) by (apply at_In; lia). apply pos_at; [exact (i_ndw n s I)|lia]. }
  split.
  { intros g j Hg Hj. assert (R : 0 <= g * n + j < G * n) by nia. unfold memberOf at 1. rewrite (i_local n s I).
    - rewrite pos_at by (try exact (i_ndw n s I); lia). assert ((g * n + j) / n = g) as -> by (symmetry; apply Z.div_unique with (r := j); lia).
      symmetry. now apply members_eq with (G := G).
    - apply at_In. lia.
    - intros E. apply (f_equal (pos (fWorld s))) in E. unfold managerOf in E. rewrite !pos_at in E by (try exact (i_ndw n s I); lia). lia. }
  split; [rewrite HM, zrange_length; lia|]. split.
  { intros i Hi. rewrite HM. rewrite <- (nth_at (zrange 0 G) i). rewrite at_zrange by lia. rewrite <- nth_at. unfold globalComm, memberOf.
    assert (HZ : zlen (zrange 0 G) = G) by (apply zlen_zrange; lia).
    rewrite at_map by (rewrite zlen_app, zlen_map, HZ; unfold zlen; cbn; lia). rewrite at_app_l by (rewrite zlen_map, HZ; lia).
    rewrite at_map by (rewrite HZ; lia). rewrite at_zrange by lia. f_equal. lia. }
  split.
  { intros r. pose proof (i_reus n s I) as HP. split.
    - intros H. apply (Permutation_in _ HP) in H. apply in_map_iff in H. destruct H as (p & <- & Hp). unfold sparesOf in Hp. apply filter_In in Hp.
      destruct Hp as (H1 & H2). apply negb_true_iff, isIn_false in H2. rewrite at_pos by exact H1. split; [now apply pos_range|now split].
    - intros (H1 & H2 & H3). apply (Permutation_in _ (Permutation_sym HP)). apply in_map_iff. exists (at_ (fSpare s) r).
      split; [apply pos_at; [exact (i_nds n s I)|exact H1]|]. apply filter_In. split; [exact H2|]. apply negb_true_iff. now apply isIn_false. }
  apply (Permutation_NoDup (Permutation_sym (i_reus n s I))). apply NoDup_pos_map; [apply NoDup_filter, (i_nds n s I)|]. intros p Hp. now apply filter_In in Hp.
Qed.

(** The recovery always ends, whatever the order in which messages arrive, and the manager is told the truth: the groups are restored if and only if
    at least as many processes wait as have died. Exactly the dead processes have left. *)
Theorem C104_recovery_ends : forall ngroup nprocs s dead o, 0 < ngroup -> 0 < nprocs -> ftReachable ngroup nprocs s -> failure nprocs dead s -> validOrder o ->
  exists s' b, recover nprocs dead o s = Some (s', b) /\ (b = false <-> (numDead dead s <= numWaiting s)%nat) /\
    fSpare s' = filter (fun p => negb (dead p)) (fSpare s).
Proof.
  intros ngroup n s dead o HG Hn HR HF HO. pose proof (reach_inv ngroup n s HG Hn HR) as I.
  pose proof (zlen_perm _ _ (failed_perm n s dead o I HO)) as HP. rewrite zlen_map in HP.
  destruct (Z_le_gt_dec (zlen (arrFailed o (map (fRank s) (filter dead (fWorld s))))) (zlen (sparesOf s))) as [H|H].
  - destruct (recover_enough n s dead o Hn I HF HO H) as (s' & E & _ & HS & _). exists s', false. split; [exact E|]. split; [|exact HS].
    split; [|reflexivity]. intros _. rewrite HP in H. unfold zlen, sparesOf in H. unfold numDead, numWaiting. lia.
  - destruct (recover_few n s dead o Hn I HF HO ltac:(lia)) as (s' & G & E & _ & HS & _). exists s', true. split; [exact E|]. split; [|exact HS].
    split; [discriminate|]. intros HC. exfalso. rewrite HP in H. unfold zlen, sparesOf in H. unfold numDead, numWaiting in HC. lia.
Qed.

(** Restored: the world has the size it had; every living process has the world rank it had, and the rank of a dead process is taken by a process
    that was waiting. *)
Theorem C104_restored : forall ngroup nprocs s dead o s', 0 < ngroup -> 0 < nprocs -> ftReachable ngroup nprocs s -> failure nprocs dead s -> validOrder o ->
  recover nprocs dead o s = Some (s', false) ->
  length (fWorld s') = length (fWorld s) /\ fMasters s' = fMasters s /\
  forall r, 0 <= r < Z.of_nat (length (fWorld s)) ->
    (dead (at_ (fWorld s) r) = false -> at_ (fWorld s') r = at_ (fWorld s) r) /\ (dead (at_ (fWorld s) r) = true -> waiting s (at_ (fWorld s') r)).
Proof.
  intros ngroup n s dead o s' HG Hn HR HF HO HE. pose proof (reach_inv ngroup n s HG Hn HR) as I.
  destruct (Z_le_gt_dec (zlen (arrFailed o (map (fRank s) (filter dead (fWorld s))))) (zlen (sparesOf s))) as [H|H].
  - destruct (recover_enough n s dead o Hn I HF HO H) as (s2 & E & _ & HS & HL & HW & HM). rewrite HE in E. injection E as <-.
    split; [unfold zlen in HL; lia|]. split; [exact HM|]. intros r Hr. specialize (HW r Hr). destruct (dead (at_ (fWorld s) r)); split; intros Q; try discriminate; [|exact HW].
    unfold sparesOf in HW. apply filter_In in HW. destruct HW as (H1 & H2). split; [exact H1|]. now apply negb_true_iff, isIn_false in H2.
  - destruct (recover_few n s dead o Hn I HF HO ltac:(lia)) as (s2 & G & E & _). rewrite HE in E. discriminate.
Qed.

(** Not restored: the groups without dead processes remain, unchanged and in the same order, followed by the manager; the manager's list has one entry for
    each, so that entry i means the i-th of these groups. *)
Theorem C104_removed : forall ngroup nprocs s dead o s', 0 < ngroup -> 0 < nprocs -> ftReachable ngroup nprocs s -> failure nprocs dead s -> validOrder o ->
  recover nprocs dead o s = Some (s', true) ->
  exists kept, (forall g, In g kept <-> 0 <= g < numGroups nprocs (fWorld s) /\ ~ hasDead nprocs dead s g) /\ StronglySorted Z.lt kept /\
    fWorld s' = flat_map (fun g => map (memberOf nprocs s g) (zrange 0 nprocs)) kept ++ [last (fWorld s) 0] /\ length (fMasters s') = length kept.
Proof.
  intros ngroup n s dead o s' HG Hn HR HF HO HE. pose proof (reach_inv ngroup n s HG Hn HR) as I.
  destruct (Z_le_gt_dec (zlen (arrFailed o (map (fRank s) (filter dead (fWorld s))))) (zlen (sparesOf s))) as [H|H].
  - destruct (recover_enough n s dead o Hn I HF HO H) as (s2 & E & _). rewrite HE in E. discriminate.
  - destruct (recover_few n s dead o Hn I HF HO ltac:(lia)) as (s2 & G & E & _ & HS & HL & HW & HM). rewrite HE in E. injection E as <-.
    exists (okGroups n (fWorld s) G dead). destruct (i_len n s I) as (G1 & HG1 & HL1 & _). assert (G = G1) by nia. subst G1. split; [|split; [|split]].
    + intros g. rewrite (numGroups_eq n (fWorld s) G Hn HL). unfold okGroups. rewrite filter_In, zrange_In. split.
      * intros (H1 & H2). split; [exact H1|]. rewrite <- (hasDead_iff n dead s G g Hn HL H1). destruct (groupFailed n dead (fWorld s) g); [discriminate|congruence].
      * intros (H1 & H2). split; [exact H1|]. rewrite <- (hasDead_iff n dead s G g Hn HL H1) in H2. destruct (groupFailed n dead (fWorld s) g); [exfalso; auto|reflexivity].
    + unfold okGroups. apply sorted_filter. exact (zrange_lt G).
    + rewrite HW. f_equal.
      * assert (HO' : forall g, In g (okGroups n (fWorld s) G dead) -> 0 <= g < G) by apply ok_In. revert HO'. generalize (okGroups n (fWorld s) G dead).
        induction l as [|g l IH]; intros HO'; [reflexivity|]. cbn [flat_map]. rewrite IH by (intros; apply HO'; now right). f_equal. symmetry.
        apply members_eq with (G := G); auto. apply HO'. now left.
      * f_equal. destruct (C104_between_recoveries ngroup n s HG Hn HR) as (G2 & HG2 & HL2 & _ & _ & _ & HLast & _). unfold managerOf.
        rewrite HLast. destruct (i_last n s I) as (l & El). rewrite El, last_last. reflexivity.
    + rewrite HM, zrange_length. unfold zlen. lia.
Qed.

(** Example: three groups of two processes and the manager (process 6). First process 1 dies: no process waits, so the group is removed and process 0 waits.
    Then process 4 dies and process 0 takes its rank. *)
Definition idOrder : arrival := Arrival (fun l => l) (fun l => l) (fun l => l) (fun l => l).
Lemma idOrder_ok : validOrder idOrder.
Proof. repeat split; intros l; apply Permutation_refl. Qed.
Lemma failure_dec : forall n dead s, forallb (fun p => implb (dead p) (negb (pos (fWorld s) p =? zlen (fWorld s) - 1))) (fWorld s) = true ->
  (forall p, dead p = true -> In p (fWorld s)) -> (zlen (failedGroupIDs n dead (fWorld s)) <? numGroups n (fWorld s)) = true -> failure n dead s.
Proof.
  intros n dead s H1 H2 H3. split; [|now apply Z.ltb_lt]. intros p Hp. split; [auto|]. rewrite forallb_forall in H1. specialize (H1 p (H2 p Hp)).
  rewrite Hp in H1. cbn [implb] in H1. apply negb_true_iff, Z.eqb_neq in H1. exact H1.
Qed.
Definition next (dead : Z -> bool) (s : ftState) : ftState := match recover 2 dead idOrder s with Some (s', _) => s' | None => s end.
Lemma next_reachable : forall ngroup dead s, ftReachable ngroup 2 s -> failure 2 dead s -> match recover 2 dead idOrder s with Some _ => true | None => false end = true ->
  ftReachable ngroup 2 (next dead s).
Proof.
  intros ngroup dead s R F H. unfold next. destruct (recover 2 dead idOrder s) as [[s' b]|] eqn:E; [|discriminate]. exact (ft_recover ngroup 2 s dead idOrder s' b R F idOrder_ok E).
Qed.
Definition afterFirst : ftState := next (Z.eqb 1) (ftInit 3 2).
Definition afterSecond : ftState := next (Z.eqb 4) afterFirst.
Example C104_ex_reachable : ftReachable 3 2 afterFirst /\ failure 2 (Z.eqb 4) afterFirst /\ ftReachable 3 2 afterSecond.
Proof.
  assert (F1 : failure 2 (Z.eqb 1) (ftInit 3 2)).
  { apply failure_dec; [vm_compute; reflexivity| |vm_compute; reflexivity]. intros p Hp. apply Z.eqb_eq in Hp. subst p. vm_compute. tauto. }
  assert (R1 : ftReachable 3 2 afterFirst) by (apply next_reachable; [apply ft_init|exact F1|vm_compute; reflexivity]).
  assert (F2 : failure 2 (Z.eqb 4) afterFirst).
  { apply failure_dec; [vm_compute; reflexivity| |vm_compute; reflexivity]. intros p Hp. apply Z.eqb_eq in Hp. subst p. vm_compute. tauto. }
  split; [exact R1|]. split; [exact F2|]. apply next_reachable; [exact R1|exact F2|vm_compute; reflexivity].
Qed.
Example C104_ex : option_map snd (recover 2 (Z.eqb 1) idOrder (ftInit 3 2)) = Some true /\ fWorld afterFirst = [2; 3; 4; 5; 6] /\ fReusable afterFirst = [0] /\ fMasters afterFirst = [0; 1] /\ numWaiting afterFirst = 1%nat /\
  option_map snd (recover 2 (Z.eqb 4) idOrder afterFirst) = Some false /\ fWorld afterSecond = [2; 3; 0; 5; 6] /\ fLocal afterSecond 0 = [0; 5] /\
  fLocal afterSecond 5 = [0; 5] /\ fLocal afterSecond 3 = [2; 3] /\ fReusable afterSecond = [].
Proof. vm_compute. repeat split. Qed.

(** C105: if one group has failed, it is restored whenever there are enough processes waiting. With several failed groups this is not so: the groups are
    restored together or not at all. *)
Theorem C105_one_group_partial : forall ngroup nprocs s dead o g, 0 < ngroup -> 0 < nprocs -> ftReachable ngroup nprocs s -> failure nprocs dead s -> validOrder o ->
  0 <= g < numGroups nprocs (fWorld s) -> (forall g', 0 <= g' < numGroups nprocs (fWorld s) -> hasDead nprocs dead s g' -> g' = g) ->
  (length (filter (fun j => dead (memberOf nprocs s g j)) (zrange 0 nprocs)) <= numWaiting s)%nat ->
  exists s', recover nprocs dead o s = Some (s', false).
Proof.
  intros ngroup n s dead o g HG Hn HR HF HO Hg Hone HC. destruct (C104_recovery_ends ngroup n s dead o HG Hn HR HF HO) as (s' & b & E & Hb & _).
  exists s'. rewrite E. f_equal. f_equal. apply Hb. etransitivity; [|exact HC]. pose proof (reach_inv ngroup n s HG Hn HR) as I.
  destruct (i_len n s I) as (G & HGp & HL & _). rewrite (numGroups_eq n (fWorld s) G Hn HL) in *. unfold numDead.
  transitivity (length (map (memberOf n s g) (filter (fun j => dead (memberOf n s g j)) (zrange 0 n)))); [|rewrite map_length; lia].
  apply NoDup_incl_length; [apply NoDup_filter, (i_ndw n s I)|]. intros p Hp. apply filter_In in Hp. destruct Hp as (HpW & HD).
  destruct (proj1 HF p HD) as (_ & HM). destruct (group_of n (fWorld s) G Hn ltac:(lia) HL (i_ndw n s I) p HpW HM) as (Hg' & HB).
  rewrite <- (members_eq n s G _ Hn HL Hg') in HB. apply in_map_iff in HB. destruct HB as (j & Ej & Hj). apply zrange_In in Hj.
  assert (pos (fWorld s) p / n = g). { apply Hone; [exact Hg'|]. exists j. split; [exact Hj|]. now rewrite Ej. }
  rewrite H in Ej. apply in_map_iff. exists j. split; [exact Ej|]. apply filter_In. split; [now apply zrange_In|]. now rewrite Ej.
Qed.
Example C105_ex : exists s', recover 2 (Z.eqb 4) idOrder afterFirst = Some (s', false).
Proof.
  destruct C104_ex_reachable as (R & F & _). apply (C105_one_group_partial 3 2 afterFirst (Z.eqb 4) idOrder 1); try lia; auto using idOrder_ok.
  - vm_compute. split; [discriminate|reflexivity].
  - intros g' Hg' (j & Hj & HD). change (numGroups 2 (fWorld afterFirst)) with 2 in Hg'. assert (g' = 0 \/ g' = 1) as [->| ->] by lia; [|reflexivity].
    exfalso. assert (j = 0 \/ j = 1) as [->| ->] by lia; vm_compute in HD; discriminate.
Qed.

(** Four groups of two processes; process 1 dies, so process 0 waits. Then process 2 and process 4, of two groups, die: process 0 could complete either
    group, but none is restored. *)
Definition fourFirst : ftState := next (Z.eqb 1) (ftInit 4 2).
Definition two (p : Z) : bool := (p =? 2) || (p =? 4).
Theorem C105_several_groups_refuted : exists ngroup nprocs s dead o s' g, 0 < ngroup /\ 0 < nprocs /\ ftReachable ngroup nprocs s /\ failure nprocs dead s /\
  validOrder o /\ 0 <= g < numGroups nprocs (fWorld s) /\ hasDead nprocs dead s g /\
  (length (filter (fun j => dead (memberOf nprocs s g j)) (zrange 0 nprocs)) <= numWaiting s)%nat /\
  recover nprocs dead o s = Some (s', true) /\ (forall j, 0 <= j < nprocs -> ~ In (memberOf nprocs s g j) (fWorld s')).
Proof.
  assert (HW : option_map (fun x => (fWorld (fst x), snd x)) (recover 2 two idOrder fourFirst) = Some ([6; 7; 8], true)) by (vm_compute; reflexivity).
  exists 4, 2, fourFirst, two, idOrder. destruct (recover 2 two idOrder fourFirst) as [[s' b]|] eqn:E; cbn [option_map fst snd] in HW; [|discriminate HW].
  injection HW as HW1 HW2. subst b. exists s', 0.
  assert (F1 : failure 2 (Z.eqb 1) (ftInit 4 2)).
  { apply failure_dec; [vm_compute; reflexivity| |vm_compute; reflexivity]. intros p Hp. apply Z.eqb_eq in Hp. subst p. vm_compute. tauto. }
  assert (R1 : ftReachable 4 2 fourFirst) by (apply next_reachable; [apply ft_init|exact F1|vm_compute; reflexivity]).
  split; [lia|]. split; [lia|]. split; [exact R1|]. split.
  { apply failure_dec; [vm_compute; reflexivity| |vm_compute; reflexivity]. intros p Hp. unfold two in Hp. apply orb_true_iff in Hp. rewrite !Z.eqb_eq in Hp. destruct Hp as [->| ->]; vm_compute; tauto. }
  split; [exact idOrder_ok|]. split; [vm_compute; split; [discriminate|reflexivity]|]. split; [exists 0; split; [lia|reflexivity]|]. split; [vm_compute; lia|].
  split; [reflexivity|]. intros j Hj. rewrite HW1. assert (j = 0 \/ j = 1) as [->| ->] by lia; vm_compute; intuition discriminate.
Qed.

(** A process that dies while it waits: the manager waits forever for its rank (getReusableRanksSpare). *)
Theorem C105_dead_waiting_refuted : exists ngroup nprocs s dead o, 0 < ngroup /\ 0 < nprocs /\ ftReachable ngroup nprocs s /\ validOrder o /\
  (forall p, dead p = true -> In p (fSpare s) /\ p <> last (fSpare s) 0) /\ (exists p, dead p = true /\ waiting s p) /\
  recover nprocs dead o s = None.
Proof.
  exists 4, 2, fourFirst, (fun p => (p =? 0) || (p =? 2)), idOrder.
  assert (F1 : failure 2 (Z.eqb 1) (ftInit 4 2)).
  { apply failure_dec; [vm_compute; reflexivity| |vm_compute; reflexivity]. intros p Hp. apply Z.eqb_eq in Hp. subst p. vm_compute. tauto. }
  assert (R1 : ftReachable 4 2 fourFirst) by (apply next_reachable; [apply ft_init|exact F1|vm_compute; reflexivity]).
  split; [lia|]. split; [lia|]. split; [exact R1|]. split; [exact idOrder_ok|]. split.
  { intros p Hp. apply orb_true_iff in Hp. rewrite !Z.eqb_eq in Hp. change (last (fSpare fourFirst) 0) with 8. split; [|lia]. destruct Hp as [->| ->]; vm_compute; tauto. }
  split; [exists 0; split; [reflexivity|]; split; [vm_compute; tauto|vm_compute; intuition discriminate]|]. vm_compute. reflexivity.
Qed.

Print Assumptions C104_between_recoveries.
Print Assumptions C104_recovery_ends.
Print Assumptions C104_restored.
Print Assumptions C104_removed.
Print Assumptions C105_one_group_partial.
Print Assumptions C105_several_groups_refuted.
Print Assumptions C105_dead_waiting_refuted.
