(** Properties of the recovery after failed process groups: C88-C90. *)
From Coq Require Import QArith Qcanon Permutation.
From Verif Require Import Base QcTools LevelSetsModel CombiSchemeModel FaultModel FaultProofs FaultIsoProofs FaultProps RecoveryModel RecoveryProofs.
Open Scope Z_scope.
Ltac Zify.zify_post_hook ::= idtac.

(** Before the recovery: a group has failed, or it waits and its manager and its workers have the same tasks; no task is in two groups. *)
Definition healthy (g : pgroup) : Prop := pst g = PWait /\ pending g = None /\ map (fun t => (oid t, ocoef t)) (ptasks g) = map (fun w => (wid w, wcoef w)) (wtasks g).
Definition beforeRecovery (gs : list pgroup) : Prop :=
  Forall (fun g => pst g = PFail \/ healthy g) gs /\ NoDup (map oid (concat (map ptasks gs))) /\ exists g, In g gs /\ pst g <> PFail.
Definition alive (gs : list pgroup) : list pgroup := filter (fun g => negb (isFail g)) gs.
Definition failedTasks (gs : list pgroup) : list tobj := concat (map ptasks (filter isFail gs)).

(** ** The start *)
Lemma same_objs : forall p w, map (fun t => (oid t, ocoef t)) p = map (fun w => (wid w, wcoef w)) w <-> p = map objOf w.
Proof.
  induction p as [|t p IH]; intros [|x w]; cbn [map]; split; intros H; try discriminate; auto.
  - injection H as H1 H2 H3. apply IH in H3. subst p. f_equal. destruct t. cbn in *. now subst.
  - injection H as -> H. apply IH in H. rewrite H. reflexivity.
Qed.
Lemma failed_alive_length : forall gs, (length (filter isFail gs) + length (alive gs) = length gs)%nat.
Proof. induction gs as [|g gs IH]; auto. unfold alive in *. cbn [filter length]. destruct (isFail g); cbn [negb length]; lia. Qed.
Lemma failedGroups_map : forall gs, map (fun i => nth i gs noGroup) (failedGroups gs) = filter isFail gs.
Proof.
  intros gs. unfold failedGroups. set (f := fun i => nth i gs noGroup).
  assert (E : forall l, map f (filter (fun i => isFail (f i)) l) = filter isFail (map f l)).
  { induction l as [|i l IH]; auto. cbn [filter map]. destruct (isFail (f i)); cbn [map]; now rewrite IH. }
  rewrite E. f_equal. unfold f. clear. apply (nth_ext _ _ noGroup noGroup); [now rewrite map_length, seq_length|]. intros n Hn. rewrite map_length, seq_length in Hn.
  rewrite (nth_indep _ noGroup (nth 0 gs noGroup)) by (rewrite map_length, seq_length; lia).
  rewrite (map_nth (fun i => nth i gs noGroup)), seq_nth by lia. reflexivity.
Qed.
Lemma failedGroups_length : forall gs, length (failedGroups gs) = length (filter isFail gs).
Proof. intros. now rewrite <- failedGroups_map, map_length. Qed.
Lemma failedGroups_in : forall gs i, In i (failedGroups gs) <-> (i < length gs)%nat /\ isFail (nth i gs noGroup) = true.
Proof. intros. unfold failedGroups. rewrite filter_In, in_seq. split; intros [? ?]; split; auto; lia. Qed.
Lemma faultIDs_tasks : forall gs, faultIDs gs = map oid (failedTasks gs).
Proof. intros. unfold faultIDs, failedTasks. rewrite <- failedGroups_map, concat_map, !map_map. reflexivity. Qed.

Lemma must_params : forall c a k, must (map (fun g => RParams g c) (seq a k) ++ [RPoll]) = seq a k /\ reinits (map (fun g => RParams g c) (seq a k) ++ [RPoll]) = [].
Proof. intros c a k. revert a. induction k as [|k IH]; intros a; auto. cbn [seq map app must reinits]. destruct (IH (S a)) as [-> ->]. auto. Qed.
Lemma wf_params : forall n c k a, (a + k <= n)%nat -> wf n (map (fun g => RParams g c) (seq a k) ++ [RPoll]).
Proof.
  intros n c. induction k as [|k IH]; intros a H; [cbn; auto|]. cbn [seq map app wf]. split; [apply IH; lia|].
  destruct (must_params c (S a) k) as [-> ->]. split; [lia|]. split; [rewrite in_seq; lia|]. split; [auto|].
  destruct (map _ (seq (S a) k)); discriminate.
Qed.
Definition tailProg (av : list nat) (rc : list tobj) (n : nat) (c : Z -> Qc) : list rinstr :=
  (if (length rc =? 0)%nat then [] else map (RRecompute av) rc ++ [RPoll]) ++ updateParams n c.
Lemma tail_spec : forall n av rc c, (exists g, (g < n)%nat /\ ~ In g av) ->
  wf n (tailProg av rc n c) /\ must (tailProg av rc n c) = [] /\ reinits (tailProg av rc n c) = [] /\
  Forall (fun x => specific x = false) (tailProg av rc n c) /\ tailProg av rc n c <> [] /\ todo (tailProg av rc n c) = map redone rc.
Proof.
  intros n av rc c G.
  assert (U : wf n (updateParams n c)) by (split; [apply wf_params; lia|exact I]).
  assert (UF : Forall (fun x => specific x = false) (updateParams n c)).
  { constructor; auto. apply Forall_app. split; [|repeat constructor]. apply Forall_forall. intros x Hx. apply in_map_iff in Hx as (? & <- & _). reflexivity. }
  assert (UR : reinits (updateParams n c) = []) by (cbn [updateParams reinits]; apply must_params).
  assert (UT : todo (updateParams n c) = []).
  { unfold updateParams, todo. cbn [flat_map todo1 app]. rewrite flat_map_app. cbn [flat_map todo1 app]. rewrite app_nil_r. generalize (seq 0 n). induction l; auto. }
  unfold tailProg. destruct (length rc =? 0)%nat eqn:E.
  - apply Nat.eqb_eq in E. destruct rc; [|discriminate]. cbn [app map]. repeat split; auto; try apply U. discriminate.
  - rewrite <- app_assoc. cbn [app]. set (Q := RPoll :: updateParams n c).
    assert (Q0 : wf n Q /\ Forall (fun x => specific x = false) Q /\ must Q = [] /\ reinits Q = [] /\ Q <> [] /\ todo Q = []).
    { unfold Q. split; [cbn [wf]; split; [exact U|exact I]|]. split; [constructor; auto|]. split; [reflexivity|]. split; [exact UR|]. split; [discriminate|]. exact UT. }
    clearbody Q. clear - Q0 G. induction rc as [|t rc IH]; cbn [map app]; [destruct Q0 as (?&?&?&?&?&?); repeat split; auto; congruence|].
    destruct IH as (I1 & I2 & I3 & I4 & I5 & I6). split; [cbn [wf]; auto|]. split; [exact I2|]. split; [exact I3|]. split; [constructor; auto|]. split; [discriminate|].
    unfold todo in *. cbn [flat_map todo1]. now rewrite I6.
Qed.
Lemma concat_groups : forall (A : Type) (f : pgroup -> list A) gs, concat (map (fun i => f (nth i gs noGroup)) (seq 0 (length gs))) = concat (map f gs).
Proof.
  intros A f gs. f_equal. rewrite <- (map_map (fun i => nth i gs noGroup) f). f_equal.
  apply (nth_ext _ _ noGroup noGroup); [now rewrite map_length, seq_length|]. intros n Hn. rewrite map_length, seq_length in Hn.
  rewrite (nth_indep _ noGroup (nth 0 gs noGroup)) by (rewrite map_length, seq_length; lia).
  rewrite (map_nth (fun i => nth i gs noGroup)), seq_nth by lia. reflexivity.
Qed.
Lemma nodup_group : forall gs g, NoDup (map oid (concat (map ptasks gs))) -> In g gs -> NoDup (map oid (ptasks g)).
Proof.
  induction gs as [|x gs IH]; intros g ND H; [destruct H|]. cbn [map concat] in ND. rewrite map_app in ND.
  destruct H as [->|H].
  - clear - ND. induction (map oid (ptasks g)) as [|a l IH]; [constructor|]. inv ND. constructor; auto. intros K. apply H1. apply in_app_iff. auto.
  - apply IH; auto. clear - ND. induction (map oid (ptasks x)) as [|a l IH]; auto. inv ND. auto.
Qed.

(** The contents at the end. *)
Definition target (failedRecovery : bool) (gs : list pgroup) (rd rc : list tobj) : list wtask :=
  concat (map wtasks (alive gs)) ++ map zeroed (if failedRecovery then rd else keepT (map oid rc) (failedTasks gs)) ++ map redone rc.

Lemma start_inv_removed : forall gs rd rc c, beforeRecovery gs ->
  inv (length (alive gs)) (target true gs rd rc) (RState (recoveryProg true (failedGroups gs) (length (alive gs)) rd rc c) (alive gs)).
Proof.
  intros gs rd rc c (FH & ND & (a & Ia & Sa)).
  assert (LA : (0 < length (alive gs))%nat).
  { assert (In a (alive gs)) by (unfold alive; apply filter_In; split; auto; unfold isFail; destruct (pst a); auto; congruence). destruct (alive gs); [contradiction|cbn; lia]. }
  assert (HA : forall i, (i < length (alive gs))%nat -> healthy (nth i (alive gs) noGroup)).
  { intros i Hi. pose proof (nth_In (alive gs) noGroup Hi) as K. apply filter_In in K as [K1 K2]. rewrite Forall_forall in FH. destruct (FH _ K1) as [K|K]; auto.
    unfold isFail in K2. rewrite K in K2. discriminate. }
  destruct (tail_spec (length (alive gs)) [] rc c) as (W & M & R & F & NE & TD); [exists 0%nat; split; [lia|auto]|].
  assert (EP : recoveryProg true (failedGroups gs) (length (alive gs)) rd rc c = map RAdd rd ++ RPoll :: tailProg [] rc (length (alive gs)) c) by reflexivity.
  rewrite EP. set (Q := RPoll :: tailProg [] rc (length (alive gs)) c).
  assert (Q0 : wf (length (alive gs)) Q /\ Forall (fun x => specific x = false) Q /\ must Q = [] /\ reinits Q = [] /\ Q <> [] /\ todo Q = map redone rc).
  { unfold Q. split; [cbn [wf]; split; [exact W|exact I]|]. split; [constructor; auto|]. split; [reflexivity|]. split; [exact R|]. split; [discriminate|]. exact TD. }
  clearbody Q. clear W M R F NE TD EP.
  assert (A : wf (length (alive gs)) (map RAdd rd ++ Q) /\ Forall (fun x => specific x = false) (map RAdd rd ++ Q) /\ must (map RAdd rd ++ Q) = [] /\
              reinits (map RAdd rd ++ Q) = [] /\ (map RAdd rd ++ Q) <> [] /\ todo (map RAdd rd ++ Q) = map zeroed rd ++ map redone rc).
  { induction rd as [|t rd IH]; cbn [map app]; auto. destruct IH as (I1 & I2 & I3 & I4 & I5 & I6).
    split; [cbn [wf]; auto|]. split; [constructor; auto|]. split; [exact I3|]. split; [exact I4|]. split; [discriminate|].
    unfold todo in *. cbn [flat_map todo1]. now rewrite I6. }
  destruct A as (W & F & M & R & NE & TD).
  assert (SG : forall i, simG (map RAdd rd ++ Q) (alive gs) i = (ptasks (nth i (alive gs) noGroup), effW (nth i (alive gs) noGroup))) by (intros; unfold simG; now rewrite sim_nospec).
  constructor; cbn [rprog rgroups]; auto.
  - rewrite M. intros g [].
  - intros g Hg. unfold rg. cbn [rgroups]. destruct (HA g Hg) as (H1 & H2 & _). now rewrite H2.
  - rewrite R. intros g [].
  - intros E. congruence.
  - intros i Hi. rewrite SG. cbn [fst snd]. destruct (HA i Hi) as (_ & H2 & H3). rewrite effW_wait by auto. now apply same_objs.
  - rewrite TD. unfold target. apply Permutation_app_tail.
    rewrite (map_ext_in _ (fun i => wtasks (nth i (alive gs) noGroup))).
    + rewrite concat_groups. apply Permutation_refl.
    + intros i Hi. apply in_seq in Hi. rewrite SG. cbn [snd]. apply effW_wait. apply HA. lia.
Qed.

Lemma sim_reinits : forall i ig fs pw, NoDup fs ->
  sim i (map (fun g => RReinit g ig) fs) pw = if existsb (Nat.eqb i) fs then (keepT ig (fst pw), map zeroed (keepT ig (fst pw))) else pw.
Proof.
  intros i ig fs. induction fs as [|g fs IH]; intros pw ND; cbn [map sim existsb]; auto. inv ND. rewrite IH by auto. cbn [simI].
  rewrite (Nat.eqb_sym g i). destruct (Nat.eqb_spec i g) as [->|N]; cbn [orb]; auto.
  destruct (existsb (Nat.eqb g) fs) eqn:E; auto. apply existsb_exists in E as (y & Hy & E). apply Nat.eqb_eq in E. subst. contradiction.
Qed.
Lemma keepT_concat : forall ig l, keepT ig (concat l) = concat (map (keepT ig) l).
Proof.
  intros ig. induction l as [|a l IH]; auto. cbn [concat map]. rewrite <- IH. clear. unfold keepT.
  induction a as [|x a IH]; auto. cbn [app filter]. destruct (negb (ignored ig x)); cbn [app]; now rewrite IH.
Qed.
Lemma start_inv_restored : forall junk gs rd rc c, beforeRecovery gs ->
  inv (length gs) (target false gs rd rc) (RState (recoveryProg false (failedGroups gs) (length gs) rd rc c) (map (restored junk) gs)).
Proof.
  intros junk gs rd rc c (FH & ND & (a & Ia & Sa)). set (n := length gs). set (fs := failedGroups gs).
  assert (NF : NoDup fs) by (apply NoDup_filter, seq_NoDup).
  assert (LF : forall g, In g fs -> (g < n)%nat) by (intros g Hg; now apply failedGroups_in in Hg).
  assert (NTH : forall i, (i < n)%nat -> nth i (map (restored junk) gs) noGroup = restored junk (nth i gs noGroup)).
  { intros i Hi. rewrite (nth_indep _ noGroup (restored junk noGroup)) by (rewrite map_length; auto). apply map_nth. }
  assert (EXA : exists g, (g < n)%nat /\ ~ In g fs).
  { apply (In_nth _ _ noGroup) in Ia as (i & Hi & <-). exists i. split; auto. intros K. apply failedGroups_in in K as [_ K]. unfold isFail in K. destruct (pst (nth i gs noGroup)); congruence. }
  assert (HA : forall i, (i < n)%nat -> isFail (nth i gs noGroup) = false -> healthy (nth i gs noGroup)).
  { intros i Hi K. rewrite Forall_forall in FH. destruct (FH _ (nth_In gs noGroup Hi)) as [K1|K1]; auto. unfold isFail in K. rewrite K1 in K. discriminate. }
  destruct (tail_spec n fs rc c EXA) as (W & M & R & F & NE & TD).
  set (ig := map oid rc).
  assert (EP : recoveryProg false fs n rd rc c = map (fun g => RReinit g ig) fs ++ RPoll :: tailProg fs rc n c) by reflexivity.
  rewrite EP. set (Q := RPoll :: tailProg fs rc n c).
  assert (Q0 : wf n Q /\ Forall (fun x => specific x = false) Q /\ must Q = [] /\ reinits Q = [] /\ Q <> [] /\ todo Q = map redone rc).
  { unfold Q. split; [cbn [wf]; split; [exact W|exact I]|]. split; [constructor; auto|]. split; [reflexivity|]. split; [exact R|]. split; [discriminate|]. exact TD. }
  clearbody Q. clear W M R F NE TD EP. destruct Q0 as (W & F & M & R & NE & TD).
  assert (A : forall l, NoDup l -> (forall g, In g l -> (g < n)%nat) -> let p := map (fun g => RReinit g ig) l ++ Q in
     wf n p /\ must p = l /\ reinits p = l /\ p <> [] /\ todo p = map redone rc).
  { induction l as [|g l IH]; intros Nl Ll; cbn [map app]; [rewrite M, R; auto|]. inv Nl.
    destruct IH as (I1 & I2 & I3 & I4 & I5); auto. { intros; apply Ll; now right. }
    split; [cbn [wf]; rewrite I2, I3; repeat split; auto; apply Ll; now left|]. cbn [must reinits]. rewrite I2, I3. repeat split; auto. discriminate. }
  specialize (A fs NF LF). cbv zeta in A. destruct A as (W2 & M2 & R2 & NE2 & TD2).
  assert (SG : forall i, (i < n)%nat -> simG (map (fun g => RReinit g ig) fs ++ Q) (map (restored junk) gs) i =
     if isFail (nth i gs noGroup) then (keepT ig (ptasks (nth i gs noGroup)), map zeroed (keepT ig (ptasks (nth i gs noGroup)))) else (ptasks (nth i gs noGroup), wtasks (nth i gs noGroup))).
  { intros i Hi. unfold simG. rewrite sim_app, sim_nospec by auto. rewrite sim_reinits by auto. rewrite NTH by auto.
    assert (EX : existsb (Nat.eqb i) fs = isFail (nth i gs noGroup)).
    { destruct (isFail (nth i gs noGroup)) eqn:E.
      - apply existsb_exists. exists i. split; [now apply failedGroups_in|apply Nat.eqb_refl].
      - destruct (existsb (Nat.eqb i) fs) eqn:E2; auto. apply existsb_exists in E2 as (y & Hy & E2). apply Nat.eqb_eq in E2. subst y. apply failedGroups_in in Hy as [_ Hy]. congruence. }
    rewrite EX. unfold restored. destruct (isFail (nth i gs noGroup)) eqn:E; cbn [fst ptasks]; auto. rewrite effW_wait; auto. now apply HA. }
  constructor; cbn [rprog rgroups]; auto.
  - apply map_length.
  - rewrite M2. intros g Hg. unfold rg. cbn [rgroups]. rewrite NTH by auto. apply failedGroups_in in Hg as [_ Hg]. unfold restored. now rewrite Hg.
  - intros g Hg. unfold rg. cbn [rgroups]. rewrite NTH by auto. unfold restored. destruct (isFail (nth g gs noGroup)) eqn:E; [reflexivity|].
    destruct (HA g Hg E) as (H1 & H2 & _). now rewrite H2.
  - rewrite R2. intros g Hg. unfold rg. cbn [rgroups]. rewrite NTH by auto. apply (nodup_group gs (nth g gs noGroup)) in ND; [|apply nth_In; now apply LF].
    unfold restored. destruct (isFail (nth g gs noGroup)); auto.
  - intros E. congruence.
  - intros i Hi. rewrite SG by auto. destruct (isFail (nth i gs noGroup)) eqn:E; cbn [fst snd]; [now rewrite map_objOf_zeroed|].
    destruct (HA i Hi E) as (_ & _ & H3). now apply same_objs.
  - rewrite TD2. unfold target. rewrite app_assoc. apply Permutation_app_tail.
    set (fin := fun g => if isFail g then map zeroed (keepT ig (ptasks g)) else wtasks g).
    rewrite (map_ext_in _ (fun i => fin (nth i gs noGroup))).
    2: { intros i Hi. apply in_seq in Hi. rewrite SG by lia. unfold fin. destruct (isFail (nth i gs noGroup)); reflexivity. }
    unfold n. rewrite (concat_groups _ fin). unfold fin. unfold failedTasks. fold ig. rewrite keepT_concat, map_map. unfold alive. clear.
    induction gs as [|g gs IH]; [constructor|]. cbn [map concat filter]. destruct (isFail g); cbn [negb map concat].
    + rewrite map_app, IH. rewrite !app_assoc. apply Permutation_app_tail. apply Permutation_app_comm.
    + rewrite <- app_assoc. now apply Permutation_app_head.
Qed.

Lemma mapOption_find : forall ts l, NoDup (map oid ts) -> incl l ts -> mapOption (findTask ts) (map oid l) = Some l.
Proof.
  intros ts l ND. induction l as [|t l IH]; intros H; auto. cbn [map mapOption]. rewrite IH by (intros x Hx; apply H; now right).
  assert (It : In t ts) by (apply H; now left). clear - ND It. unfold findTask.
  assert (E : find (fun t0 => oid t0 =? oid t) ts = Some t); [|now rewrite E].
  induction ts as [|x ts IH]; [destruct It|]. cbn [find]. inv ND. destruct It as [->|It]; [now rewrite Z.eqb_refl|].
  destruct (Z.eqb_spec (oid x) (oid t)) as [E|E]; auto. exfalso. apply H1. rewrite E. now apply in_map.
Qed.

Definition groupsAfter (failedRecovery : bool) (junk : pgroup -> list wtask) (gs : list pgroup) : list pgroup :=
  if failedRecovery then alive gs else map (restored junk) gs.
Lemma start_eq : forall b junk gs ts rd rc c, beforeRecovery gs -> NoDup (map oid ts) -> incl rd ts -> incl rc ts ->
  startRecovery b junk gs ts (map oid rd) (map oid rc) c =
  Some (RState (recoveryProg b (failedGroups gs) (length (groupsAfter b junk gs)) rd rc c) (groupsAfter b junk gs)).
Proof.
  intros b junk gs ts rd rc c (FH & ND & (a & Ia & Sa)) NT H1 H2. unfold startRecovery, recoverComm. rewrite !mapOption_find by auto.
  assert (LA : (0 < length (alive gs))%nat).
  { assert (In a (alive gs)) by (unfold alive; apply filter_In; split; auto; unfold isFail; destruct (pst a); auto; congruence). destruct (alive gs); [contradiction|cbn; lia]. }
  rewrite failedGroups_length. pose proof (failed_alive_length gs). destruct (Nat.eqb_spec (length gs) (length (filter isFail gs))); [lia|reflexivity].
Qed.
Lemma start_inv : forall b junk gs rd rc c, beforeRecovery gs ->
  inv (length (groupsAfter b junk gs)) (target b gs rd rc) (RState (recoveryProg b (failedGroups gs) (length (groupsAfter b junk gs)) rd rc c) (groupsAfter b junk gs)).
Proof.
  intros [|] junk gs rd rc c H; cbn [groupsAfter]; [now apply start_inv_removed|]. rewrite map_length. now apply start_inv_restored.
Qed.
Lemma simC_start : forall b fs n rd rc c i c0, (i < n)%nat -> simC i (recoveryProg b fs n rd rc c) c0 = c.
Proof.
  intros b fs n rd rc c i c0 Hi. unfold recoveryProg. rewrite !app_assoc, simC_app. unfold updateParams. cbn [simC]. rewrite simC_app. cbn [simC].
  generalize (simC i (((if b then map RAdd rd else map (fun g => RReinit g (map oid rc)) fs) ++ [RPoll]) ++
     (if (length rc =? 0)%nat then [] else map (RRecompute (if b then [] else fs)) rc ++ [RPoll])) c0). intros d.
  assert (A : forall k a, (a <= i < a + k)%nat \/ d = c -> simC i (map (fun g => RParams g c) (seq a k)) d = c); [|apply A; lia].
  clear. intros k. revert d. induction k as [|k IH]; intros d a H; cbn [seq map simC]; [destruct H; [lia|auto]|].
  apply IH. destruct (Nat.eqb_spec a i); auto. destruct H; [left; lia|auto].
Qed.

(** What holds at the end of every recovery. *)
Lemma recovery_end : forall b junk gs rd rc c k s, beforeRecovery gs ->
  rsteps k (RState (recoveryProg b (failedGroups gs) (length (groupsAfter b junk gs)) rd rc c) (groupsAfter b junk gs)) s -> rprog s = [] ->
  Forall (fun g => healthy g /\ wparams g = c) (rgroups s) /\
  Permutation (concat (map wtasks (rgroups s))) (target b gs rd rc) /\
  Permutation (concat (map ptasks (rgroups s))) (map objOf (target b gs rd rc)).
Proof.
  intros b junk gs rd rc c k s B H E. pose proof (start_inv b junk gs rd rc c B) as I0. destruct (inv_steps _ _ _ _ _ I0 H) as [I _].
  set (n := length (groupsAfter b junk gs)) in *. pose proof (i_len _ _ _ I) as L.
  assert (HW : forall i, (i < n)%nat -> pst (rg s i) = PWait /\ pending (rg s i) = None /\ ptasks (rg s i) = map objOf (wtasks (rg s i))).
  { intros i Hi. pose proof (i_end _ _ _ I E i Hi) as P. pose proof (wait_pending n _ s i I Hi P) as Q. split; auto. split; auto.
    pose proof (i_same _ _ _ I i Hi) as S. rewrite E in S. unfold simG in S. cbn [sim fst snd] in S. fold (rg s i) in S. now rewrite effW_wait in S by auto. }
  assert (PW : Permutation (concat (map wtasks (rgroups s))) (target b gs rd rc)).
  { pose proof (i_perm _ _ _ I) as P. rewrite E in P. unfold todo in P. cbn [flat_map] in P. rewrite app_nil_r in P. eapply perm_trans; [|exact P].
    rewrite (map_ext_in _ (fun i => wtasks (nth i (rgroups s) noGroup))).
    - rewrite <- L, concat_groups. apply Permutation_refl.
    - intros i Hi. apply in_seq in Hi. unfold simG. cbn [sim snd]. apply effW_wait. apply HW. lia. }
  split; [|split; auto].
  - apply Forall_forall. intros g Hg. apply (In_nth _ _ noGroup) in Hg as (i & Hi & <-). fold (rg s i). rewrite L in Hi. destruct (HW i Hi) as (H1 & H2 & H3).
    split; [split; auto; split; auto; now apply same_objs|].
    pose proof (simC_steps _ _ _ _ _ i I0 H Hi) as S. rewrite E in S. unfold simCG in S. cbn [simC rprog] in S. rewrite simC_start in S by auto.
    fold (rg s i) in S. unfold effP in S. now rewrite H2 in S.
  - apply (Permutation_map objOf) in PW. rewrite concat_map, map_map in PW. rewrite (map_ext_in ptasks (fun g => map objOf (wtasks g))); auto.
    intros g Hg. apply (In_nth _ _ noGroup) in Hg as (i & Hi & <-). fold (rg s i). rewrite L in Hi. now apply HW.
Qed.

Lemma keepT_perm : forall rd rc F, NoDup (map oid F) -> Permutation (rd ++ rc) F -> Permutation (keepT (map oid rc) F) rd.
Proof.
  intros rd rc F ND P.
  assert (NR : NoDup (map oid (rd ++ rc))) by (apply (Permutation_NoDup (l := map oid F)); [apply Permutation_map; now symmetry|auto]).
  assert (KP : forall a b, Permutation a b -> Permutation (keepT (map oid rc) a) (keepT (map oid rc) b)).
  { clear. intros a b H. unfold keepT. induction H; cbn [filter]; auto.
    - destruct (negb (ignored (map oid rc) x)); auto.
    - destruct (negb (ignored (map oid rc) x)), (negb (ignored (map oid rc) y)); auto. constructor.
    - eapply perm_trans; eauto. }
  rewrite <- (KP _ _ P). assert (E : keepT (map oid rc) (rd ++ rc) = rd); [|rewrite E; apply Permutation_refl].
  assert (E2 : keepT (map oid rc) rc = []).
  { assert (G : forall l, incl l rc -> keepT (map oid rc) l = []).
    { induction l as [|t l IH]; intros H; auto. cbn [keepT filter]. assert (X : ignored (map oid rc) t = true).
      { apply existsb_exists. exists (oid t). split; [apply in_map, H; now left|apply Z.eqb_refl]. }
      rewrite X. cbn [negb]. apply IH. intros x Hx. apply H. now right. }
    apply G, incl_refl. }
  assert (E1 : keepT (map oid rc) rd = rd).
  { rewrite map_app in NR. clear - NR. induction rd as [|t rd IH]; auto. cbn [map app] in NR. inv NR. cbn [keepT filter].
    assert (X : ignored (map oid rc) t = false).
    { destruct (ignored (map oid rc) t) eqn:E; auto. apply existsb_exists in E as (y & Hy & E). apply Z.eqb_eq in E. subst y. exfalso. apply H1, in_app_iff. auto. }
    rewrite X. cbn [negb]. f_equal. now apply IH. }
  unfold keepT in *. rewrite filter_app, E1, E2. apply app_nil_r.
Qed.

Lemma alive_failed_perm : forall gs, Permutation (concat (map ptasks gs)) (concat (map ptasks (alive gs)) ++ failedTasks gs).
Proof.
  unfold alive, failedTasks. induction gs as [|g gs IH]; [constructor|]. cbn [map concat filter]. destruct (isFail g); cbn [negb map concat].
  - rewrite IH. rewrite !app_assoc. apply Permutation_app_tail. apply Permutation_app_comm.
  - rewrite <- app_assoc. now apply Permutation_app_head.
Qed.

(** C88: let the failed tasks be divided into tasks to redistribute and tasks to recompute. Whether the failed groups could be restored or not,
    the recovery never gets stuck and ends after a bounded number of steps; then every group waits, the manager and the workers agree on the tasks
    of each group, every task is in one group, the tasks of the groups that did not fail are as before, those to redistribute contain zeros, those
    to recompute their recomputed solution, and all workers have the new parameters. *)
Theorem C88_recovery_complete : forall failedRecovery junk gs ts rd rc newCoeffs, beforeRecovery gs -> NoDup (map oid ts) ->
  incl (concat (map ptasks gs)) ts -> Permutation (rd ++ rc) (failedTasks gs) ->
  exists s0, startRecovery failedRecovery junk gs ts (map oid rd) (map oid rc) newCoeffs = Some s0 /\
  (exists bound, forall k s, rsteps k s0 s -> (k <= bound)%nat) /\
  forall k s, rsteps k s0 s ->
    (rprog s <> [] -> exists s', rstep s s') /\
    (rprog s = [] ->
       Forall (fun g => healthy g /\ wparams g = newCoeffs) (rgroups s) /\
       Permutation (concat (map ptasks (rgroups s))) (concat (map ptasks gs)) /\
       Permutation (concat (map wtasks (rgroups s)))
         (concat (map wtasks (filter (fun g => negb (isFail g)) gs)) ++ map (fun t => WTask (oid t) (ocoef t) Zeroed) rd ++ map (fun t => WTask (oid t) (ocoef t) Redone) rc)).
Proof.
  intros b junk gs ts rd rc c B NT HI P.
  assert (IF : incl (failedTasks gs) ts).
  { intros t Ht. apply HI. eapply Permutation_in; [symmetry; apply alive_failed_perm|]. apply in_app_iff. auto. }
  assert (IR : incl rd ts) by (intros t Ht; apply IF; eapply Permutation_in; [exact P|]; apply in_app_iff; auto).
  assert (IC : incl rc ts) by (intros t Ht; apply IF; eapply Permutation_in; [exact P|]; apply in_app_iff; auto).
  eexists. split; [now apply start_eq|]. pose proof (start_inv b junk gs rd rc c B) as I0.
  split; [eexists; intros k s H; destruct (inv_steps _ _ _ _ _ I0 H) as [_ M]; apply (Nat.le_trans _ _ _ (Nat.le_add_r k _) M)|].
  intros k s H. destruct (inv_steps _ _ _ _ _ I0 H) as [I _]. split; [now apply (inv_progress _ _ _ I)|].
  intros E. destruct (recovery_end b junk gs rd rc c k s B H E) as (H1 & H2 & H3).
  assert (NDF : NoDup (map oid (failedTasks gs))).
  { destruct B as (_ & ND & _). apply (Permutation_NoDup (l' := map oid (concat (map ptasks (alive gs)) ++ failedTasks gs))) in ND; [|apply Permutation_map, alive_failed_perm].
    rewrite map_app in ND. clear - ND. induction (map oid (concat (map ptasks (alive gs)))) as [|x l IH]; auto. cbn [app] in ND. inv ND. auto. }
  assert (PT : Permutation (target b gs rd rc) (concat (map wtasks (alive gs)) ++ map zeroed rd ++ map redone rc)).
  { unfold target. destruct b; [apply Permutation_refl|]. apply Permutation_app_head, Permutation_app_tail, Permutation_map. now apply keepT_perm. }
  split; [exact H1|]. split; [|now rewrite H2].
  rewrite H3. rewrite (Permutation_map objOf PT). rewrite alive_failed_perm, !map_app, map_objOf_zeroed.
  assert (EA : map objOf (concat (map wtasks (alive gs))) = concat (map ptasks (alive gs))).
  { rewrite concat_map, map_map. f_equal. apply map_ext_in. intros g Hg. apply filter_In in Hg as [G1 G2]. destruct B as (FH & _). rewrite Forall_forall in FH.
    destruct (FH g G1) as [K|(_ & _ & K)]; [unfold isFail in G2; rewrite K in G2; discriminate|]. symmetry. now apply same_objs. }
  rewrite EA. apply Permutation_app_head. rewrite map_map. rewrite (map_ext (fun x => objOf (redone x)) (fun t => t)) by apply objOf_redone. now rewrite map_id.
Qed.

(** ** C89 *)
Lemma combine_groups : forall kept re gs, combineGroups kept re gs = combineTasks kept re (concat (map wtasks gs)).
Proof.
  intros kept re. assert (A : forall a b, combineTasks kept re (a ++ b) = (combineTasks kept re a + combineTasks kept re b)%Qc).
  { induction a as [|w a IH]; intros b; cbn [app combineTasks]; [ring|]. rewrite IH. ring. }
  induction gs as [|g gs IH]; auto. cbn [map concat combineGroups fold_right]. rewrite A, <- IH. reflexivity.
Qed.
Lemma combine_perm : forall kept re a b, Permutation a b -> combineTasks kept re a = combineTasks kept re b.
Proof. intros kept re a b H. induction H; cbn [combineTasks]; [auto|now rewrite IHPermutation|ring|congruence]. Qed.
Lemma combine_app : forall kept re a b, combineTasks kept re (a ++ b) = (combineTasks kept re a + combineTasks kept re b)%Qc.
Proof. intros kept re. induction a as [|w a IH]; intros b; cbn [app combineTasks]; [ring|]. rewrite IH. ring. Qed.
Lemma combine_zeroed : forall kept re l, combineTasks kept re (map zeroed l) = 0%Qc.
Proof. intros kept re. induction l as [|t l IH]; auto. cbn [map combineTasks]. rewrite IH. cbn. ring. Qed.

(** The combined solution that belongs to coefficients [c]: the sum over the tasks. *)
Definition sumOver (ids : list Z) (f : Z -> Qc) : Qc := fold_right (fun i acc => (f i + acc)%Qc) 0%Qc ids.

(** C89: the combination that follows the recovery. It is the sum over the tasks that did not fail and the recomputed ones with the coefficients
    the tasks had at the beginning; the coefficients in the new parameters do not occur ... *)
Theorem C89_combination_after_recovery_partial : forall failedRecovery junk gs ts rd rc newCoeffs s0 k s kept re,
  beforeRecovery gs -> NoDup (map oid ts) -> incl (concat (map ptasks gs)) ts -> Permutation (rd ++ rc) (failedTasks gs) ->
  (forall g w, In g gs -> pst g <> PFail -> In w (wtasks g) -> wcont w = Kept) ->
  startRecovery failedRecovery junk gs ts (map oid rd) (map oid rc) newCoeffs = Some s0 -> rsteps k s0 s -> rprog s = [] ->
  combineGroups kept re (rgroups s) =
  (fold_right (fun t acc => (ocoef t * kept (oid t) + acc)%Qc) 0%Qc (concat (map ptasks (filter (fun g => negb (isFail g)) gs))) +
   fold_right (fun t acc => (ocoef t * re (oid t) + acc)%Qc) 0%Qc rc)%Qc.
Proof.
  intros b junk gs ts rd rc c s0 k s kept re B NT HI P HK ES H E.
  destruct (C88_recovery_complete b junk gs ts rd rc c B NT HI P) as (s0' & ES' & _ & HS). rewrite ES in ES'. injection ES' as <-.
  destruct (HS k s H) as [_ HE]. destruct (HE E) as (_ & _ & PW).
  rewrite combine_groups, (combine_perm _ _ _ _ PW), !combine_app.
  change (fun t => WTask (oid t) (ocoef t) Zeroed) with zeroed. rewrite combine_zeroed.
  assert (E1 : combineTasks kept re (concat (map wtasks (alive gs))) = fold_right (fun t acc => (ocoef t * kept (oid t) + acc)%Qc) 0%Qc (concat (map ptasks (alive gs)))).
  { destruct B as (FH & _). assert (HA : forall g, In g (alive gs) -> ptasks g = map objOf (wtasks g) /\ forall w, In w (wtasks g) -> wcont w = Kept).
    { intros g Hg. apply filter_In in Hg as [G1 G2]. rewrite Forall_forall in FH. destruct (FH g G1) as [K|(K & _ & K2)]; [unfold isFail in G2; rewrite K in G2; discriminate|].
      split; [now apply same_objs|]. intros w Hw. apply (HK g w); auto. congruence. }
    clear - HA. induction (alive gs) as [|g l IH]; auto. cbn [map concat]. rewrite combine_app, IH by (intros; apply HA; now right).
    destruct (HA g (or_introl eq_refl)) as [-> K]. clear - K. induction (wtasks g) as [|w l2 IH]; cbn [map app combineTasks fold_right]; [ring|].
    rewrite <- IH by (intros; apply K; now right). unfold valueOf. rewrite (K w) by now left. cbn [objOf oid ocoef]. ring. }
  fold (alive gs). rewrite E1.
  assert (E2 : combineTasks kept re (map (fun t => WTask (oid t) (ocoef t) Redone) rc) = fold_right (fun t acc => (ocoef t * re (oid t) + acc)%Qc) 0%Qc rc).
  { clear. induction rc as [|t rc IH]; auto. cbn [map combineTasks fold_right]. rewrite IH. reflexivity. }
  rewrite E2. ring.
Qed.

(** The scheme of levels (1,1) to (3,3), two groups; the second one fails with the tasks 5 and 3, the grids (1,1) and (2,2). *)
Definition exObj (i : Z) : tobj := TObj i (getCoeff exParams i).
Definition exAlive : pgroup := PGroup PWait (map exObj [0; 1; 2; 4]) None (map (fun i => WTask i (getCoeff exParams i) Kept) [0; 1; 2; 4]) (getCoeff exParams).
Definition exFailed : pgroup := PGroup PFail (map exObj [5; 3]) None [] (getCoeff exParams).
Lemma exBefore : beforeRecovery [exAlive; exFailed].
Proof.
  split; [|split].
  - constructor; [right; repeat split|]. constructor; [left; reflexivity|constructor].
  - cbn. repeat (constructor; [simpl; intuition lia|]). constructor.
  - exists exAlive. split; [now left|discriminate].
Qed.

(** ... although the optimization found coefficients with sum 1 that do not need the task to redistribute. If all grids have the value 1, the
    combination with the new coefficients is 1, that of the program 0. *)
Theorem C89_new_coefficients_refuted : exists gs ts r, beforeRecovery gs /\ optimal false exSetup exW /\
  recomputeOptimum exParams [1; 1] [3; 3] (faultIDs gs) exW = Some r /\
  sumOver (map oid ts) (fun i => getCoeff (rParams r) i * 1)%Qc = 1%Qc /\
  forall failedRecovery junk, exists s0, startRecovery failedRecovery junk gs ts (rRedistribute r) (rRecompute r) (getCoeff (rParams r)) = Some s0 /\
  forall k s, rsteps k s0 s -> rprog s = [] ->
    Permutation (map oid (concat (map ptasks (rgroups s)))) (map oid ts) /\ Forall (fun g => wparams g = getCoeff (rParams r)) (rgroups s) /\
    combineGroups (fun _ => 1%Qc) (fun _ => 1%Qc) (rgroups s) = 0%Qc.
Proof.
  exists [exAlive; exFailed], (map exObj [0; 1; 2; 4; 5; 3]).
  assert (R : exists r, recomputeOptimum exParams [1; 1] [3; 3] [5; 3] exW = Some r /\ rRedistribute r = [3] /\ rRecompute r = [5] /\
    sumOver [0; 1; 2; 4; 5; 3] (fun i => getCoeff (rParams r) i * 1)%Qc = 1%Qc).
  { destruct (recomputeOptimum exParams [1; 1] [3; 3] [5; 3] exW) as [r|] eqn:E; [|exfalso; vm_compute in E; discriminate].
    exists r. split; auto. pose proof C83_ex as [_ X]. rewrite E in X. destruct X as (_ & X1 & X2). split; auto. split; auto.
    assert (Y : match recomputeOptimum exParams [1; 1] [3; 3] [5; 3] exW with Some r => this (sumOver [0; 1; 2; 4; 5; 3] (fun i => getCoeff (rParams r) i * 1)%Qc) = (1 # 1)%Q | None => False end)
      by (vm_compute; reflexivity).
    rewrite E in Y. apply Qc_is_canon. rewrite Y. reflexivity. }
  destruct R as (r & ER & ED & EC & ES). exists r. split; [apply exBefore|]. split; [apply exW_optimal|]. split; [exact ER|]. split; [exact ES|].
  intros b junk. rewrite ED, EC. change [3] with (map oid [exObj 3]). change [5] with (map oid [exObj 5]).
  set (ts := map exObj [0; 1; 2; 4; 5; 3]).
  assert (NT : NoDup (map oid ts)) by (cbn; repeat (constructor; [simpl; intuition lia|]); constructor).
  assert (HI : incl (concat (map ptasks [exAlive; exFailed])) ts) by (cbn [map concat exAlive exFailed ptasks app]; apply incl_refl).
  assert (PP : Permutation ([exObj 3] ++ [exObj 5]) (failedTasks [exAlive; exFailed])) by (cbn; apply perm_swap).
  destruct (C88_recovery_complete b junk [exAlive; exFailed] ts [exObj 3] [exObj 5] (getCoeff (rParams r)) exBefore NT HI PP) as (s0 & E0 & _ & HS).
  exists s0. split; [exact E0|]. intros k s H E. destruct (HS k s H) as [_ HE]. destruct (HE E) as (H1 & H2 & _). split; [|split].
  - apply Permutation_map. exact H2.
  - eapply Forall_impl; [|exact H1]. intros g [_ K]. exact K.
  - rewrite (C89_combination_after_recovery_partial b junk [exAlive; exFailed] ts [exObj 3] [exObj 5] (getCoeff (rParams r)) s0 k s); auto using exBefore.
    intros g w [<-|[<-|[]]] Hp Hw; [|exfalso; now apply Hp]. cbn [exAlive wtasks] in Hw. apply in_map_iff in Hw as (i & <- & _). reflexivity.
Qed.

(** C90: if a grid of the two finest diagonals fails (and perhaps others), the tasks are divided completely: no task is lost, and a task without
    data has coefficient 0 in the new parameters ... *)
Theorem C90_no_task_lost_partial : forall lmin lmax levels coeffs gs ts integral w s,
  Forall (fun l => length l = length lmin) levels -> length coeffs = length levels -> NoDup levels ->
  let n := length levels in
  let p := setLevelsCoeffs noParams (zseq 0 n) levels coeffs in
  validScheme lmin lmax (pDict p) ->
  beforeRecovery gs -> Permutation (concat (map ptasks gs)) ts -> Forall (fun t => 0 <= oid t < Z.of_nat n) ts ->
  (forall g w, In g gs -> pst g <> PFail -> In w (wtasks g) -> wcont w = Kept) ->
  (exists t, In t (failedTasks gs) /\ onTop lmin lmax (nth (Z.to_nat (oid t)) levels [])) ->
  programOf p lmin lmax (faultIDs gs) = Some s -> feasible integral s w ->
  exists r, recomputeOptimum p lmin lmax (faultIDs gs) w = Some r /\
  forall failedRecovery junk, exists s0, startRecovery failedRecovery junk gs ts (rRedistribute r) (rRecompute r) (getCoeff (rParams r)) = Some s0 /\
  forall k s, rsteps k s0 s -> rprog s = [] ->
    Permutation (concat (map ptasks (rgroups s))) ts /\
    forall x, In x (concat (map wtasks (rgroups s))) -> wcont x = Zeroed -> getCoeff (rParams r) (wid x) = 0%Qc.
Proof.
  intros lmin lmax levels coeffs gs ts integral w s D L ND n p VS B PT FT HK (t & It & Ot) EP Fe.
  pose proof B as (FH & NDT & _).
  assert (NF : NoDup (map oid (failedTasks gs))).
  { apply (Permutation_NoDup (l' := map oid (concat (map ptasks (alive gs)) ++ failedTasks gs))) in NDT; [|apply Permutation_map, alive_failed_perm].
    rewrite map_app in NDT. clear - NDT. induction (map oid (concat (map ptasks (alive gs)))) as [|x l IH]; auto. cbn [app] in NDT. inv NDT. auto. }
  assert (IF : incl (failedTasks gs) ts).
  { intros y Hy. apply (Permutation_in _ PT). apply (Permutation_in _ (Permutation_sym (alive_failed_perm gs))). apply in_app_iff. auto. }
  rewrite faultIDs_tasks in *. rewrite Forall_forall in FT.
  destruct (C83_failed_tasks_split_partial lmin lmax levels coeffs (map oid (failedTasks gs)) integral w s D L ND VS) as (r & ER & _ & _ & P & ZR & _); auto.
  - apply Forall_forall. intros i Hi. apply in_map_iff in Hi as (y & <- & Hy). apply FT, IF, Hy.
  - exists (oid t). split; auto. now apply in_map.
  - exists r. split; [exact ER|]. apply Permutation_map_inv in P as (l & El & Pl). symmetry in El. apply map_eq_app in El as (rd & rc & -> & E1 & E2).
    symmetry in Pl. assert (NT : NoDup (map oid ts)) by (apply (Permutation_NoDup (Permutation_map oid PT) NDT)).
    intros b junk. rewrite <- E1, <- E2.
    destruct (C88_recovery_complete b junk gs ts rd rc (getCoeff (rParams r)) B NT) as (s0 & E0 & _ & HS); auto.
    { intros y Hy. apply (Permutation_in _ PT Hy). }
    exists s0. split; [exact E0|]. intros k s' H E. destruct (HS k s' H) as [_ HE]. destruct (HE E) as (_ & H2 & H3).
    split; [now rewrite H2|]. intros x Hx Zx. apply (Permutation_in _ H3) in Hx. apply in_app_iff in Hx as [Hx|Hx]; [|apply in_app_iff in Hx as [Hx|Hx]].
    + exfalso. apply in_concat in Hx as (l & Hl & Hx). apply in_map_iff in Hl as (g & <- & Hg). apply filter_In in Hg as [Hg Ha].
      assert (K : wcont x = Kept) by (apply (HK g x); auto; intros K; unfold isFail in Ha; rewrite K in Ha; discriminate). congruence.
    + apply in_map_iff in Hx as (y & <- & Hy). cbn [wid]. apply ZR. rewrite <- E1. now apply in_map.
    + apply in_map_iff in Hx as (y & <- & Hy). discriminate.
Qed.

(** ... but if the failed tasks are not divided completely, they are lost when the groups cannot be restored, and are
    zero with their old coefficient when they can; this happens when only a grid below the two finest diagonals fails (C83). *)
Theorem C90_no_task_lost_refuted : exists lmin lmax gs ts i, Forall2 Z.lt lmin lmax /\ beforeRecovery gs /\ NoDup (map oid ts) /\
  incl (concat (map ptasks gs)) ts /\ In i (map oid (concat (map ptasks gs))) /\
  let p := paramsOf (ftScheme lmin lmax) in
  getCoeff p i = 1%Qc /\
  forall w, exists r, recomputeOptimum p lmin lmax (faultIDs gs) w = Some r /\
  (forall junk, exists s0, startRecovery true junk gs ts (rRedistribute r) (rRecompute r) (getCoeff (rParams r)) = Some s0 /\
     forall k s, rsteps k s0 s -> rprog s = [] -> ~ In i (map oid (concat (map ptasks (rgroups s)))) /\ ~ In i (map wid (concat (map wtasks (rgroups s))))) /\
  (forall junk, exists s0, startRecovery false junk gs ts (rRedistribute r) (rRecompute r) (getCoeff (rParams r)) = Some s0 /\
     forall k s, rsteps k s0 s -> rprog s = [] -> getCoeff (rParams r) i = 1%Qc /\ In (WTask i 1%Qc Zeroed) (concat (map wtasks (rgroups s)))).
Proof.
  set (p := paramsOf (ftScheme [1; 1; 1] [3; 3; 3])).
  set (t0 := TObj 0 1%Qc). set (t1 := TObj 1 0%Qc).
  set (ga := PGroup PWait [t1] None [WTask 1 0%Qc Kept] (fun _ => 0%Qc)). set (gb := PGroup PFail [t0] None [] (fun _ => 0%Qc)).
  exists [1; 1; 1], [3; 3; 3], [ga; gb], [t1; t0], 0.
  assert (B : beforeRecovery [ga; gb]).
  { split; [constructor; [right; repeat split|]; constructor; [left; reflexivity|constructor]|]. split; [cbn; repeat (constructor; [simpl; intuition lia|]); constructor|]. exists ga. split; [now left|discriminate]. }
  assert (NT : NoDup (map oid [t1; t0])) by (cbn; repeat (constructor; [simpl; intuition lia|]); constructor).
  split; [repeat constructor; lia|]. split; [exact B|]. split; [exact NT|]. split; [apply incl_refl|]. split; [cbn; auto|]. cbv zeta. fold p.
  assert (C : getCoeff p 0 = 1%Qc) by (apply Qc_is_canon; vm_compute; reflexivity).
  split; [exact C|]. intros w. exists (Recomputed p [0] [] []).
  split; [vm_compute; reflexivity|]. split; intros junk; (eexists; split; [apply (start_eq _ junk [ga; gb] [t1; t0] [] []); auto using incl_nil_l|]); intros k s H E;
    destruct (recovery_end _ junk [ga; gb] [] [] (getCoeff p) k s B H E) as (_ & H2 & H3).
  - split; intros K.
    + apply (Permutation_in _ (Permutation_map oid H3)) in K. cbn in K. intuition lia.
    + apply (Permutation_in _ (Permutation_map wid H2)) in K. cbn in K. intuition lia.
  - split; [exact C|]. apply (Permutation_in _ (Permutation_sym H2)). cbn. auto.
Qed.

(** * Examples *)
Ltac norm := cbn [recoveryProg updateParams map app seq length Nat.eqb failedGroups filter isFail nth pst restored expandReinit ignored existsb Z.eqb Pos.eqb oid ocoef orb negb ptasks
  setG rg upd rgroups rprog sendR storeR dropR removeObj completeR applyR applyP pending wtasks wparams].
Ltac ltn := apply Nat.ltb_lt; vm_compute; reflexivity.
(** The recovery of two groups, the second one restored: a complete execution. *)
Example C88_ex : exists gs ts rd rc, beforeRecovery gs /\ NoDup (map oid ts) /\ incl (concat (map ptasks gs)) ts /\ Permutation (rd ++ rc) (failedTasks gs) /\
  faultIDs gs = [5; 3] /\
  exists s0 k s, startRecovery false (fun _ => []) gs ts (map oid rd) (map oid rc) (fun _ => 0%Qc) = Some s0 /\ rsteps k s0 s /\ rprog s = [] /\
    map (fun g => map oid (ptasks g)) (rgroups s) = [[0; 1; 5]; [3]] /\ map (fun g => map (fun w => (wid w, wcont w)) (wtasks g)) (rgroups s) =
      [[(0, Kept); (1, Kept); (5, Redone)]; [(3, Zeroed)]].
Proof.
  exists [PGroup PWait [TObj 0 1%Qc; TObj 1 0%Qc] None [WTask 0 1%Qc Kept; WTask 1 0%Qc Kept] (fun _ => 1%Qc); PGroup PFail [TObj 5 1%Qc; TObj 3 1%Qc] None [] (fun _ => 1%Qc)],
    [TObj 0 1%Qc; TObj 1 0%Qc; TObj 5 1%Qc; TObj 3 1%Qc], [TObj 3 1%Qc], [TObj 5 1%Qc]. split.
  { split; [constructor; [right; repeat split|]; constructor; [left; reflexivity|constructor]|]. norm.
    split; [cbn; repeat (constructor; [simpl; intuition lia|]); constructor|]. eexists. split; [left; reflexivity|discriminate]. }
  split; [cbn; repeat (constructor; [simpl; intuition lia|]); constructor|]. split; [apply incl_refl|].
  split; [cbn; apply perm_swap|]. split; [reflexivity|]. do 3 eexists. split; [reflexivity|]. split.
  - norm. eapply rsteps_S; [eapply rs_reinit with (g := 1%nat); [reflexivity|ltn]|]. norm.
    eapply rsteps_S; [eapply rs_reset with (g := 1%nat); [reflexivity|ltn|reflexivity]|]. norm.
    eapply rsteps_S; [eapply rs_complete with (g := 1%nat); [ltn|reflexivity]|]. norm.
    eapply rsteps_S; [eapply rs_refresh with (g := 1%nat); [reflexivity|ltn|reflexivity]|]. norm.
    eapply rsteps_S; [eapply rs_remove with (g := 1%nat); [reflexivity|ltn]|]. norm.
    eapply rsteps_S; [eapply rs_complete with (g := 1%nat); [ltn|reflexivity]|]. norm.
    eapply rsteps_S; [eapply rs_poll; [reflexivity|repeat constructor]|]. norm.
    eapply rsteps_S; [eapply rs_recompute with (g := 0%nat); [reflexivity|ltn|intros [K|[]]; discriminate|reflexivity]|]. norm.
    eapply rsteps_S; [eapply rs_complete with (g := 0%nat); [ltn|reflexivity]|]. norm.
    eapply rsteps_S; [eapply rs_poll; [reflexivity|repeat constructor]|]. norm.
    eapply rsteps_S; [eapply rs_poll; [reflexivity|repeat constructor]|]. norm.
    eapply rsteps_S; [eapply rs_params with (g := 0%nat); [reflexivity|ltn|reflexivity]|]. norm.
    eapply rsteps_S; [eapply rs_params with (g := 1%nat); [reflexivity|ltn|reflexivity]|]. norm.
    eapply rsteps_S; [eapply rs_complete with (g := 1%nat); [ltn|reflexivity]|]. norm.
    eapply rsteps_S; [eapply rs_complete with (g := 0%nat); [ltn|reflexivity]|]. norm.
    eapply rsteps_S; [eapply rs_poll; [reflexivity|repeat constructor]|]. norm.
    apply rsteps_O.
  - repeat split; reflexivity.
Qed.
Example C89_ex : (forall g w, In g [exAlive; exFailed] -> pst g <> PFail -> In w (wtasks g) -> wcont w = Kept) /\
  this (fold_right (fun t acc => (ocoef t * 1 + acc)%Qc) 0%Qc (ptasks exAlive)) = (0 # 1)%Q.
Proof.
  split; [|vm_compute; reflexivity]. intros g w [<-|[<-|[]]] Hp Hw; [|exfalso; now apply Hp]. cbn [exAlive wtasks] in Hw. apply in_map_iff in Hw as (i & <- & _). reflexivity.
Qed.

Print Assumptions C88_recovery_complete.
Print Assumptions C89_combination_after_recovery_partial.
Print Assumptions C89_new_coefficients_refuted.
(** The situation of C89 meets the hypotheses: (2,2) is a grid of the finest diagonal. *)
Example C90_ex : faultIDs [exAlive; exFailed] = [5; 3] /\ Permutation (concat (map ptasks [exAlive; exFailed])) (map exObj [0; 1; 2; 4; 5; 3]) /\ In (exObj 3) (failedTasks [exAlive; exFailed]) /\
  onTop [1; 1] [3; 3] (nth 3 (sSpaces (ftScheme [1; 1] [3; 3])) []) /\ programOf exParams [1; 1] [3; 3] [5; 3] = Some exSetup /\
  feasible false exSetup exW /\ validScheme [1; 1] [3; 3] (pDict exParams).
Proof.
  split; [reflexivity|]. split; [apply Permutation_refl|]. split; [cbn; auto|]. split; [left; vm_compute; reflexivity|]. split; [exact (proj1 C82_ex)|].
  split; [exact (proj1 (exW_optimal false))|exact (proj1 C80_ex)].
Qed.

Print Assumptions C90_no_task_lost_partial.
Print Assumptions C90_no_task_lost_refuted.
