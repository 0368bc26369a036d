(** C125: receiving from any source in the fault simulator. *)
From Verif Require Import Base SimTestModel SimTestProps AnyRecvModel.
Open Scope Z_scope.
Ltac Zify.zify_post_hook ::= idtac.

(** A failure that is known and not acknowledged. *)
Definition pendingFailure (e : testEnv) : Prop := eDead e <> [] /\ eAcked e = false.
(** Nothing to react to. *)
Definition nothing (e : testEnv) : Prop := ~ pendingFailure e /\ eProbe e = None /\ eRevoked e = false.

Lemma pending_test : forall e, (negb (Nat.eqb (length (eDead e)) 0) && negb (eAcked e) = true) <-> pendingFailure e.
Proof.
  intros e. unfold pendingFailure. destruct (eDead e) as [|x l], (eAcked e); cbn; split; intros H; try discriminate; try (destruct H; congruence); auto. split; [discriminate|auto].
Qed.

(** The call goes on exactly as long as there is nothing to react to, and then says what it was: a failure that is not acknowledged
    before everything else, then a message, then that the communicator is revoked. *)
Lemma any_loop : forall envs k, match recvAnyFrom k envs with
  | AnyWaiting => Forall nothing envs
  | AnyReturned n c learned answered => exists i e, n = (k + i)%nat /\ nth_error envs i = Some e /\ Forall nothing (firstn i envs) /\
      ((pendingFailure e /\ c = CPending /\ learned = [] /\ answered = []) \/
       (~ pendingFailure e /\ exists src m, eProbe e = Some (src, m) /\ answered = [src] /\
          c = (match m with MAlive | MAliveNB => eRet e | MRevoked => CRevoked | MDead => CFailed end) /\
          learned = (match m with MDead => [anySource] | _ => [] end)) \/
       (~ pendingFailure e /\ eProbe e = None /\ eRevoked e = true /\ c = CRevoked /\ learned = [] /\ answered = []))
  end.
Proof.
  induction envs as [|e envs IH]; intros k; cbn [recvAnyFrom]; [constructor|]. assert (PT := pending_test e).
  destruct (negb (Nat.eqb (length (eDead e)) 0) && negb (eAcked e)).
  - exists 0%nat, e. rewrite Nat.add_0_r. split; [auto|]. split; [auto|]. split; [constructor|]. left. split; [now apply PT|auto].
  - assert (NP : ~ pendingFailure e) by (intros X; apply PT in X; discriminate). destruct (eProbe e) as [[src m]|] eqn:P.
    + assert (X : forall c l, c = (match m with MAlive | MAliveNB => eRet e | MRevoked => CRevoked | MDead => CFailed end) -> l = (match m with MDead => [anySource] | _ => [] end) ->
        exists i e0, k = (k + i)%nat /\ nth_error (e :: envs) i = Some e0 /\ Forall nothing (firstn i (e :: envs)) /\
        ((pendingFailure e0 /\ c = CPending /\ l = [] /\ [src] = []) \/
         (~ pendingFailure e0 /\ exists src0 m0, eProbe e0 = Some (src0, m0) /\ [src] = [src0] /\
            c = (match m0 with MAlive | MAliveNB => eRet e0 | MRevoked => CRevoked | MDead => CFailed end) /\
            l = (match m0 with MDead => [anySource] | _ => [] end)) \/
         (~ pendingFailure e0 /\ eProbe e0 = None /\ eRevoked e0 = true /\ c = CRevoked /\ l = [] /\ [src] = []))).
      { intros c l Hc Hl. exists 0%nat, e. rewrite Nat.add_0_r. split; [auto|]. split; [auto|]. split; [constructor|]. right. left. split; [auto|]. exists src, m. auto. }
      destruct m; apply X; reflexivity.
    + destruct (eRevoked e) eqn:R.
      * exists 0%nat, e. rewrite Nat.add_0_r. split; [auto|]. split; [auto|]. split; [constructor|]. right. right. auto 10.
      * assert (NO : nothing e) by (split; auto). specialize (IH (S k)). destruct (recvAnyFrom (S k) envs) as [|n c l a]; [now constructor|].
        destruct IH as (i & e' & -> & N & F & O). exists (S i), e'. split; [lia|]. split; [exact N|]. split; [cbn; constructor; auto|]. exact O.
Qed.

(** Success only after a message of a living process, which is sent an alive message, and with no failure that is not acknowledged. *)
Theorem C125_success : forall revoked envs n learned answered, recvAny revoked envs = AnyReturned n CSuccess learned answered ->
  revoked = false /\ learned = [] /\ exists e src m, nth_error envs n = Some e /\ eProbe e = Some (src, m) /\ (m = MAlive \/ m = MAliveNB) /\
    eRet e = CSuccess /\ answered = [src] /\ forall k e', (k <= n)%nat -> nth_error envs k = Some e' -> ~ pendingFailure e'.
Proof.
  intros revoked envs n learned answered H. unfold recvAny in H. destruct revoked; [discriminate|]. split; [auto|].
  pose proof (any_loop envs 0) as L. rewrite H in L. destruct L as (i & e & -> & N & F & O). cbn [Nat.add].
  destruct O as [(_ & X & _)|[(NP & src & m & P & A & C & LE)|(_ & _ & _ & X & _)]]; try discriminate.
  assert (M : (m = MAlive \/ m = MAliveNB) /\ eRet e = CSuccess) by (destruct m; try discriminate; auto). destruct M as [M ER].
  split; [destruct M as [-> | ->]; auto|]. exists e, src, m. repeat split; auto. intros k e' Hk Nk. destruct (Nat.eq_dec k i) as [->|NE]; [congruence|].
  rewrite Forall_forall in F. apply (F e'). apply in_firstn with k; auto. lia.
Qed.

(** The call returns at the latest when a failure is known and not acknowledged, the communicator is revoked or a message is there. *)
Theorem C125_returns : forall revoked envs k e, nth_error envs k = Some e -> ~ nothing e ->
  exists n c learned answered, recvAny revoked envs = AnyReturned n c learned answered /\ (n <= k)%nat.
Proof.
  intros revoked envs k e N H. unfold recvAny. destruct revoked; [do 4 eexists; split; [reflexivity|lia]|].
  pose proof (any_loop envs 0) as L. destruct (recvAnyFrom 0 envs) as [|n c l a].
  - exfalso. apply H. rewrite Forall_forall in L. apply L. now apply nth_error_In in N.
  - exists n, c, l, a. split; [reflexivity|]. destruct L as (i & e' & -> & N' & F & _). destruct (Nat.le_gt_cases i k) as [|G]; [lia|]. exfalso. apply H.
    rewrite Forall_forall in F. apply F. apply in_firstn with k; auto.
Qed.

(** What the code says: a failure is reported before messages, and messages before a revoked communicator. *)
Theorem C125_code : forall envs n c learned answered e, recvAny false envs = AnyReturned n c learned answered -> nth_error envs n = Some e ->
  (pendingFailure e -> c = CPending) /\
  (~ pendingFailure e -> eProbe e = None -> c = CRevoked) /\
  (forall src, ~ pendingFailure e -> eProbe e = Some (src, MDead) -> c = CFailed) /\
  (forall src, ~ pendingFailure e -> eProbe e = Some (src, MRevoked) -> c = CRevoked).
Proof.
  intros envs n c learned answered e H N. unfold recvAny in H. pose proof (any_loop envs 0) as L. rewrite H in L. destruct L as (i & e' & -> & N' & _ & O).
  cbn [Nat.add] in N. rewrite N in N'. injection N' as <-.
  destruct O as [(P & C & _)|[(NP & src & m & P & A & C & LE)|(NP & P & R & C & _)]].
  - split; [auto|]. split; [contradiction|]. split; intros; contradiction.
  - split; [contradiction|]. split; [congruence|]. split; intros s _ P'; rewrite P in P'; injection P' as <- ->; exact C.
  - split; [contradiction|]. split; [auto|]. split; intros s _ P'; congruence.
Qed.

(** The process that said it is dead is not inserted into the dead ones; instead MPI_ANY_SOURCE is. *)
Theorem C125_dead_refuted :
  ~ (forall envs n c learned answered e src, recvAny false envs = AnyReturned n c learned answered -> nth_error envs n = Some e ->
       0 <= src -> ~ pendingFailure e -> eProbe e = Some (src, MDead) -> In src learned) /\
  (forall revoked envs n c learned answered q, recvAny revoked envs = AnyReturned n c learned answered -> In q learned -> q < 0).
Proof.
  split.
  - intros H. set (e := TestEnv false [] false false CSuccess (Some (4, MDead))).
    destruct (H [e] 0%nat CFailed [anySource] [4] e 4 eq_refl eq_refl ltac:(lia)) as [X|[]]; [intros [X _]; apply X; reflexivity|reflexivity|discriminate].
  - intros revoked envs n c learned answered q H I. unfold recvAny in H. destruct revoked; [injection H as <- <- <- <-; destruct I|].
    pose proof (any_loop envs 0) as L. rewrite H in L. destruct L as (i & e & -> & N & F & O).
    destruct O as [(_ & _ & -> & _)|[(_ & src & m & _ & _ & _ & ->)|(_ & _ & _ & _ & -> & _)]]; try contradiction. destruct m; try contradiction. destruct I as [<-|[]]. unfold anySource. lia.
Qed.

(** Two passes with nothing, then a message; and a failure that is known before the message is looked at. *)
Example C125_ex : let quiet := TestEnv false [] false false CSuccess None in
  recvAny false [quiet; quiet; TestEnv false [3] true false CSuccess (Some (2, MAliveNB))] = AnyReturned 2 CSuccess [] [2] /\
  recvAny false [quiet; TestEnv false [3] false false CSuccess (Some (2, MAlive))] = AnyReturned 1 CPending [] [] /\
  recvAny false [quiet; TestEnv true [] false false CSuccess None] = AnyReturned 1 CRevoked [] [].
Proof. vm_compute. repeat split. Qed.

Print Assumptions C125_success.
Print Assumptions C125_returns.
Print Assumptions C125_code.
Print Assumptions C125_dead_refuted.
