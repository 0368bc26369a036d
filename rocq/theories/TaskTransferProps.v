(** C119: a task is the same on all processes it was sent to. *)
From Verif Require Import Base FaultModel ParamsModel ParamsProps TaskTransferModel.
From Coq Require Import String QArith Qcanon List Lia.
Import ListNotations.
Open Scope list_scope.
Open Scope Z_scope.
Ltac Zify.zify_post_hook ::= idtac.

(** The criterion as it is read from an archive. *)
Definition afterArchive (c : crit) : crit :=
  match c with CritWeibull k lambda fm nc _ _ => CritWeibull k lambda fm nc (-1) 0 | _ => c end.

Lemma crit_codec : forall c r, loadCrit (saveCrit c ++ r) = Some (option_map afterArchive c, r).
Proof.
  intros [[|n its ranks|k lambda fm nc tf st]|] r; try reflexivity; unfold saveCrit, loadCrit; cbn [app].
  - cbn [String.eqb Ascii.eqb Bool.eqb]. unfold bindLoad. rewrite <- !app_assoc, int_codec, !(vec_codec _ _ int_codec). reflexivity.
  - cbn [String.eqb Ascii.eqb Bool.eqb]. unfold bindLoad. cbn [loadReal]. rewrite <- !app_assoc, bool_codec, int_codec. reflexivity.
Qed.

Lemma task_codec : forall x, loadTask (saveTask x) =
  Some (TaskObj (oDim x) (oId x) (oLevel x) (oCoeff x) (oBoundary x) (oFinished x) (option_map afterArchive (oCrit x))).
Proof.
  intros x. unfold saveTask, loadTask, bindLoad. rewrite crit_codec, !int_codec, (vec_codec _ _ int_codec), real_codec.
  rewrite (vec_codec _ _ int_codec), <- (app_nil_r (saveBool (oFinished x))), bool_codec. reflexivity.
Qed.

(** Two criteria that are the same up to the time of the fault and the start. *)
Definition sameCrit (a b : option crit) : Prop :=
  match a, b with
  | None, None => True
  | Some CritBase, Some CritBase => True
  | Some (CritStatic n its ranks), Some (CritStatic n' its' ranks') => n = n' /\ its = its' /\ ranks = ranks'
  | Some (CritWeibull k lambda fm nc _ _), Some (CritWeibull k' lambda' fm' nc' _ _) =>
      k = k' /\ lambda = lambda' /\ fm = fm' /\ nc = nc'
  | _, _ => False
  end.
Definition sameTask (x y : taskObj) : Prop :=
  oId x = oId y /\ oDim x = oDim y /\ oLevel x = oLevel y /\ oCoeff x = oCoeff y /\ oBoundary x = oBoundary y
  /\ sameCrit (oCrit x) (oCrit y).

Lemma sameCrit_refl : forall a, sameCrit a a.
Proof. intros [[| |]|]; cbn; auto. Qed.
Lemma sameCrit_sym : forall a b, sameCrit a b -> sameCrit b a.
Proof. intros [[| |]|] [[| |]|]; cbn; try tauto; intuition congruence. Qed.
Lemma sameCrit_trans : forall a b c, sameCrit a b -> sameCrit b c -> sameCrit a c.
Proof. intros [[| |]|] [[| |]|] [[| |]|]; cbn; try tauto; intuition congruence. Qed.
Lemma sameTask_sym : forall a b, sameTask a b -> sameTask b a.
Proof. intros a b (A & B & C & D & E & F). repeat split; auto. now apply sameCrit_sym. Qed.
Lemma sameTask_trans : forall a b c, sameTask a b -> sameTask b c -> sameTask a c.
Proof.
  intros a b c (A & B & C & D & E & F) (A' & B' & C' & D' & E' & F'). repeat split; try congruence. eapply sameCrit_trans; eauto.
Qed.
Lemma sameTask_refl : forall a, sameTask a a.
Proof. intros a. repeat split. apply sameCrit_refl. Qed.

Lemma archive_same : forall c, sameCrit (option_map afterArchive c) c.
Proof. intros [[| |]|]; cbn; auto. Qed.
Lemma init_same : forall c start tf sample, sameCrit (option_map (fun c => critInit c start tf sample) c) c.
Proof. intros [[| |]|] *; cbn; auto. Qed.

(** An object of any process. *)
Definition someTask (s : procsTasks) (x : taskObj) : Prop := exists p, In x (snd (s p)).

(** Each object after a step is new or comes from an object before it. *)
Lemma step_objects : forall s o s', stepTask s o = Some s' ->
  (forall p, (exists dim l b q c, o = OCreate p dim l b q c) \/ fst (s' p) = fst (s p)) /\
  (forall x, someTask s' x ->
     (exists y, someTask s y /\ sameTask x y)
     \/ (exists p dim l b q c, o = OCreate p dim l b q c /\ oId x = fst (s p) /\ fst (s' p) = fst (s p) + 1)).
Proof.
  intros s o s' E.
  assert (UP : forall p v, (forall q, fst (setProc s p (fst (s p), v) q) = fst (s q))).
  { intros p v q. unfold setProc. destruct (Nat.eqb_spec q p) as [->|]; auto. }
  assert (OLD : forall p v x, someTask (setProc s p v) x -> (exists q, q <> p /\ In x (snd (s q))) \/ In x (snd v)).
  { intros p v x (q & Hq). unfold setProc in Hq. destruct (Nat.eqb q p) eqn:EQ; [now right|left; exists q; split; [apply Nat.eqb_neq; exact EQ|exact Hq]]. }
  assert (REP : forall p i x x', nth_error (snd (s p)) i = Some x -> sameTask x' x ->
     forall z, someTask (setProc s p (fst (s p), replaceNth i x' (snd (s p)))) z -> exists y, someTask s y /\ sameTask z y).
  { intros p i x x' Hx SX z Hz. destruct (OLD _ _ _ Hz) as [(q & _ & Hq)|Hq].
    - exists z. split; [exists q; auto|apply sameTask_refl].
    - cbn [snd] in Hq. unfold replaceNth in Hq. apply in_app_or in Hq as [Hq|[<-|Hq]].
      + exists z. split; [exists p; rewrite <- (firstn_skipn i (snd (s p))); apply in_or_app; auto|apply sameTask_refl].
      + exists x. split; auto. exists p. eapply nth_error_In; eauto.
      + exists z. split; [exists p; rewrite <- (firstn_skipn (S i) (snd (s p))); apply in_or_app; auto|apply sameTask_refl]. }
  destruct o as [p dim l b q c|p i f|p i start tf sample|p i|p i q]; cbn [stepTask] in E.
  - destruct (s p) as [count xs] eqn:EP. injection E as <-. split.
    + intros r. destruct (Nat.eq_dec r p) as [->|N]; [left; eauto 8|]. right. unfold setProc. destruct (Nat.eqb_spec r p); [congruence|auto].
    + intros x Hx. destruct (OLD _ _ _ Hx) as [(r & _ & Hr)|Hr]; [left; exists x; split; [exists r; auto|apply sameTask_refl]|].
      cbn [snd] in Hr. apply in_app_or in Hr as [Hr|[<-|[]]].
      * left. exists x. split; [exists p; now rewrite EP|apply sameTask_refl].
      * right. exists p, dim, l, b, q, c. rewrite EP. unfold setProc. rewrite Nat.eqb_refl. auto.
  - destruct (s p) as [count xs] eqn:EP. destruct (nth_error xs i) as [x|] eqn:EX; [|discriminate]. injection E as <-.
    specialize (UP p). specialize (REP p). rewrite EP in UP, REP. cbn [fst snd] in UP, REP. split; [intros r; right; apply UP|].
    intros z Hz. left. eapply REP; eauto. repeat split. apply sameCrit_refl.
  - destruct (s p) as [count xs] eqn:EP. destruct (nth_error xs i) as [x|] eqn:EX; [|discriminate]. injection E as <-.
    specialize (UP p). specialize (REP p). rewrite EP in UP, REP. cbn [fst snd] in UP, REP. split; [intros r; right; apply UP|].
    intros z Hz. left. eapply REP; eauto. repeat split. apply init_same.
  - destruct (s p) as [count xs] eqn:EP. injection E as <-. specialize (UP p). rewrite EP in UP. split; [intros r; right; apply UP|].
    intros z Hz. left. exists z. split; [|apply sameTask_refl]. destruct (OLD _ _ _ Hz) as [(r & _ & Hr)|Hr]; [exists r; auto|].
    cbn [snd] in Hr. exists p. rewrite EP. cbn [snd]. apply in_app_or in Hr as [Hr|Hr].
    + rewrite <- (firstn_skipn i xs). apply in_or_app. auto.
    + rewrite <- (firstn_skipn (S i) xs). apply in_or_app. auto.
  - destruct (nth_error (snd (s p)) i) as [x|] eqn:EX; [|discriminate]. rewrite task_codec in E.
    destruct (s q) as [count ys] eqn:EQ. injection E as <-. specialize (UP q). rewrite EQ in UP. split; [intros r; right; apply UP|].
    intros z Hz. left. destruct (OLD _ _ _ Hz) as [(r & _ & Hr)|Hr]; [exists z; split; [exists r; auto|apply sameTask_refl]|].
    cbn [snd] in Hr. apply in_app_or in Hr as [Hr|[<-|[]]].
    + exists z. split; [exists q; now rewrite EQ|apply sameTask_refl].
    + exists x. split; [exists p; eapply nth_error_In; eauto|]. repeat split. apply archive_same.
Qed.

(** Only process [m] (the manager) constructs tasks. *)
Definition createsOnly (m : nat) (o : taskOp) : Prop := match o with OCreate p _ _ _ _ _ => p = m | _ => True end.

Definition tasksInv (m : nat) (s : procsTasks) : Prop :=
  (forall x, someTask s x -> oId x < fst (s m))
  /\ (forall x y, someTask s x -> someTask s y -> oId x = oId y -> sameTask x y \/ x = y).

Lemma create_unique : forall s p dim l b q c s' x, stepTask s (OCreate p dim l b q c) = Some s' -> someTask s' x ->
  someTask s x \/ x = TaskObj dim (fst (s p)) l q b false c.
Proof.
  intros s p dim l b q c s' x E (r & Hr). cbn [stepTask] in E. destruct (s p) as [count xs] eqn:EP. injection E as <-.
  unfold setProc in Hr. destruct (Nat.eqb r p); [|left; exists r; auto]. cbn [snd] in Hr.
  apply in_app_or in Hr as [Hr|[<-|[]]]; [left; exists p; now rewrite EP|right; reflexivity].
Qed.

Lemma step_inv : forall m s o s', createsOnly m o -> stepTask s o = Some s' -> tasksInv m s -> tasksInv m s'.
Proof.
  intros m s o s' CO E [I1 I2]. destruct (step_objects s o s' E) as [CT OB].
  assert (CM : fst (s m) <= fst (s' m)).
  { destruct (CT m) as [(dim & l & b & q & c & ->)| ->]; [|lia]. cbn [stepTask] in E. destruct (s m) as [count xs] eqn:EM. injection E as <-.
    unfold setProc. rewrite Nat.eqb_refl. cbn. lia. }
  split.
  - intros x Hx. destruct (OB x Hx) as [(y & Hy & SX)|(p & dim & l & b & q & c & -> & EI & EC)].
    + destruct SX as (-> & _). specialize (I1 y Hy). lia.
    + cbn in CO. subst p. lia.
  - intros x y Hx Hy EI.
    destruct o as [p dim l b q c|p i f|p i start tf sample|p i|p i q].
    1: { cbn in CO. subst p. destruct (create_unique _ _ _ _ _ _ _ _ _ E Hx) as [Hx'|Ex], (create_unique _ _ _ _ _ _ _ _ _ E Hy) as [Hy'|Ey].
      - auto.
      - subst y. cbn in EI. specialize (I1 x Hx'). lia.
      - subst x. cbn in EI. specialize (I1 y Hy'). lia.
      - right. congruence. }
    all: destruct (OB x Hx) as [(x' & Hx' & SX)|(p0 & dim & l & b & q0 & c & EO & _)]; [|discriminate];
         destruct (OB y Hy) as [(y' & Hy' & SY)|(p0 & dim & l & b & q0 & c & EO & _)]; [|discriminate];
         left; assert (EI' : oId x' = oId y') by (destruct SX as (SX & _), SY as (SY & _); congruence);
         destruct (I2 x' y' Hx' Hy' EI') as [SS|SS]; [|subst y'];
         (eapply sameTask_trans; [exact SX|]; try (eapply sameTask_trans; [exact SS|]); now apply sameTask_sym).
Qed.

Lemma run_inv : forall m os s s', Forall (createsOnly m) os -> runTasks s os = Some s' -> tasksInv m s -> tasksInv m s'.
Proof.
  intros m. induction os as [|o os IH]; intros s s' F E I; cbn [runTasks] in E; [now injection E as <-|].
  destruct (stepTask s o) as [s1|] eqn:E1; [|discriminate]. inv F. eapply IH; eauto. eapply step_inv; eauto.
Qed.

Lemma none_inv : forall m, tasksInv m noTasks.
Proof. intros m. split; intros x; [intros (p & [])|intros y (p & [])]. Qed.

(** Whatever was constructed on the manager, sent, broadcast, sent back and deleted, in any order: two objects with the same ID on
    any processes are the same task, with the same dimension, level, coefficient, boundary and kind of faults. *)
Theorem C119_one_task : forall m os s p q x y, Forall (createsOnly m) os -> runTasks noTasks os = Some s ->
  In x (snd (s p)) -> In y (snd (s q)) -> oId x = oId y ->
  oDim x = oDim y /\ oLevel x = oLevel y /\ oCoeff x = oCoeff y /\ oBoundary x = oBoundary y /\ sameCrit (oCrit x) (oCrit y).
Proof.
  intros m os s p q x y F E Hx Hy EI. destruct (run_inv _ _ _ _ F E (none_inv m)) as [_ I].
  destruct (I x y) as [(_ & H)| ->]; auto; [exists p; auto|exists q; auto|]. repeat split. apply sameCrit_refl.
Qed.

(** A new task has an ID that no object on any process has. *)
Theorem C119_new_id : forall m os s dim l b q c, Forall (createsOnly m) os -> runTasks noTasks os = Some s ->
  exists s' x, stepTask s (OCreate m dim l b q c) = Some s' /\ snd (s' m) = snd (s m) ++ [x]
    /\ (oDim x = dim /\ oLevel x = l /\ oBoundary x = b /\ oCoeff x = q /\ oCrit x = c /\ oFinished x = false)
    /\ (forall p y, In y (snd (s p)) -> oId y <> oId x).
Proof.
  intros m os s dim l b q c F E. destruct (run_inv _ _ _ _ F E (none_inv m)) as [I _]. cbn [stepTask].
  destruct (s m) as [count xs] eqn:EM. eexists. exists (TaskObj dim count l q b false c). split; [reflexivity|].
  unfold setProc. rewrite Nat.eqb_refl. split; [reflexivity|]. split; [cbn; tauto|]. intros p y Hy.
  assert (Hs : someTask s y) by (exists p; auto). specialize (I y Hs). cbn in *. lia.
Qed.

(** Sending never fails and the receiver gets one more object, with the ID, the flag and all other attributes of the one that was
    sent; static faults occur at the same combinations on the same ranks. *)
Theorem C119_hop : forall s p i q x, nth_error (snd (s p)) i = Some x ->
  exists s' y, stepTask s (OSend p i q) = Some s' /\ snd (s' q) = snd (s q) ++ [y] /\ (forall r, fst (s' r) = fst (s r))
    /\ (forall r, r <> q -> s' r = s r)
    /\ (oId y = oId x /\ oDim y = oDim x /\ oLevel y = oLevel x /\ oCoeff y = oCoeff x /\ oBoundary y = oBoundary x
        /\ oFinished y = oFinished x)
    /\ (forall n its ranks, oCrit x = Some (CritStatic n its ranks) -> exists c, oCrit y = Some c /\
          forall master now ncombi rank, critFail c master now ncombi rank = failNow its ranks ncombi rank).
Proof.
  intros s p i q x Hx. cbn [stepTask]. rewrite Hx, task_codec. destruct (s q) as [count ys] eqn:EQ. eexists _, _.
  split; [reflexivity|]. unfold setProc at 1. rewrite Nat.eqb_refl. cbn [snd]. split; [reflexivity|].
  split; [intros r; unfold setProc; destruct (Nat.eqb_spec r q) as [->|]; [now rewrite EQ|auto]|].
  split; [intros r Hr; unfold setProc; destruct (Nat.eqb_spec r q); [congruence|auto]|].
  split; [cbn; tauto|]. intros n its ranks EC. rewrite EC. cbn. eexists. split; [reflexivity|]. reflexivity.
Qed.

(** Random faults: if the receiver initializes the criterion with the same start and a given time, the two agree on every process. *)
Theorem C119_weibull_partial : forall x y c, loadTask (saveTask x) = Some y -> oCrit x = Some c ->
  exists d, oCrit y = Some d /\ forall start tf sample sample' master now ncombi rank, 0 <= tf ->
    critFail (critInit d start tf sample) master now ncombi rank = critFail (critInit c start tf sample') master now ncombi rank.
Proof.
  intros x y c E EC. rewrite task_codec in E. injection E as <-. rewrite EC. cbn [oCrit option_map]. eexists. split; [reflexivity|].
  intros start tf sample sample' master now ncombi rank H. destruct c; cbn [afterArchive critInit]; auto.
  destruct (Z.ltb_spec tf 0); [lia|]. reflexivity.
Qed.

(** The time of the fault does not travel with the task: with a criterion that was initialized before sending, each receiver that
    may fail does so in the first combination that is not the last, though the sender would live until that time. *)
Theorem C119_weibull_refuted : forall x y k lambda fm nc tf0 start0 start tf sample ncombi rank now,
  oCrit x = Some (critInit (CritWeibull k lambda fm nc tf0 start0) start tf sample) -> loadTask (saveTask x) = Some y ->
  0 <= tf -> 0 < start -> start <= now <= start + tf -> ncombi <> nc - 1 ->
  (forall c master, oCrit x = Some c -> critFail c master now ncombi rank = Some false)
  /\ (exists d, oCrit y = Some d /\ critFail d false now ncombi rank = Some true).
Proof.
  intros x y k lambda fm nc tf0 start0 start tf sample ncombi rank now EC E H0 HS HN HC. rewrite task_codec in E. injection E as <-.
  rewrite EC. cbn [critInit] in *. destruct (Z.ltb_spec tf 0); [lia|]. split.
  - intros c master EE. injection EE as <-. cbn [critFail]. destruct (negb fm && master); auto. destruct (Z.eqb_spec ncombi (nc - 1)); auto.
    destruct (Z.ltb_spec tf (now - start)); auto. lia.
  - eexists. split; [reflexivity|]. cbn. rewrite andb_false_r. destruct (Z.eqb_spec ncombi (nc - 1)); [lia|].
    destruct (Z.ltb_spec (-1) (now - 0)); auto. lia.
Qed.

(** * Example: two tasks are constructed on process 0; the first is sent to 1, broadcast to 2, back to the manager, where the old object
    is deleted, and to 3. *)
Definition exHistory : list taskOp :=
  [OCreate 0 2 [1; 3] [2; 2] (Q2Qc 1) (Some (CritStatic 1 [4] [7]));
   OCreate 0 2 [2; 2] [2; 2] (Q2Qc (-1)) (Some (CritWeibull (Q2Qc 1) (Q2Qc 2) false 10 (-1) 0));
   OSend 0 0 1; OFinish 1 0 true; OSend 1 0 2; OSend 1 0 0; ODelete 0 0; OSend 0 1 3; OInit 0 0 100 50 0; OSend 0 0 3].
Example C119_ex : Forall (createsOnly 0) exHistory /\
  match runTasks noTasks exHistory with
  | Some s => map oId (snd (s 0%nat)) = [1; 0] /\ map oId (snd (s 3%nat)) = [0; 1] /\ map oLevel (snd (s 3%nat)) = [[1; 3]; [2; 2]]
      /\ map oFinished (snd (s 3%nat)) = [true; false]
      /\ map (option_map (fun c => critFail c false 120 4 7)) (map oCrit (snd (s 3%nat))) = [Some (Some true); Some (Some true)]
      /\ map (option_map (fun c => critFail c false 120 4 7)) (map oCrit (snd (s 0%nat))) = [Some (Some false); Some (Some true)]
  | None => False
  end.
Proof. split; [repeat constructor|]. vm_compute. repeat split; reflexivity. Qed.

Print Assumptions C119_one_task.
Print Assumptions C119_new_id.
Print Assumptions C119_hop.
Print Assumptions C119_weibull_partial.
Print Assumptions C119_weibull_refuted.
