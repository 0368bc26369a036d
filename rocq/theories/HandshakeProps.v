(** C124: blocking messages of the fault simulator. *)
From Verif Require Import Base SimTestModel HandshakeModel.
Open Scope Z_scope.
Ltac Zify.zify_post_hook ::= idtac.

(** An invariant of the steps holds after all schedules. *)
Lemma run_invariant : forall tag v (P : handshake -> Prop) s r, P (Handshake s r [] [] [] []) ->
  (forall h b, P h -> P (handStep tag v h b)) -> forall schedule, P (handRun tag v s r schedule).
Proof.
  intros tag v P s r H0 HS schedule. unfold handRun. revert H0. generalize (Handshake s r [] [] [] []).
  induction schedule as [|b l IH]; intros h H; cbn [fold_left]; auto.
Qed.

Definition alive (tag : Z) : list (Z * hmsg) := [(tag + tagOffsetAlive, HAlive)].
Definition dead (tag : Z) : list (Z * hmsg) := [(tag + tagOffsetAlive, HDead)].
Definition okS := SEnd CSuccess false.
Definition okR v := REnd CSuccess (Some v) false.

(** The states of an exchange between two living processes. *)
Definition exchangeStates (tag : Z) (v : list Z) : list handshake :=
  let a := alive tag in let d := [(tag, v)] in
  [Handshake SBegin RBegin [] [] [] []; Handshake SLoop RBegin a [] [] []; Handshake SBegin RLoop [] a [] []; Handshake SLoop RLoop a a [] [];
   Handshake SLoop RReal [] a [] []; Handshake SReal RLoop a [] [] []; Handshake SReal RReal [] [] [] [];
   Handshake okS RLoop a [] [] d; Handshake okS RReal [] [] [] d; Handshake okS (okR v) [] [] [] []].

Lemma off_neq : forall tag, (tag =? tag + tagOffsetAlive) = false.
Proof. intros. apply Z.eqb_neq. unfold tagOffsetAlive. lia. Qed.

Ltac hsteps := repeat (cbn [hS hR toR toS hCounts hData takeTag app alive dead okS okR deadAnswer] || rewrite Z.eqb_refl || rewrite off_neq).
Ltac pick := repeat (first [left; reflexivity | right]); try contradiction.

Lemma exchange_inv : forall tag v schedule, In (handRun tag v SBegin RBegin schedule) (exchangeStates tag v).
Proof.
  intros tag v. apply (run_invariant tag v (fun h => In h (exchangeStates tag v))); [now left|]. intros h b H. unfold exchangeStates in *. cbn [In] in H.
  repeat (destruct H as [<-|H]; [destruct b; unfold handStep, senderStep, receiverStep, okS, okR, alive; hsteps; cbn [In]; unfold okS, okR; tauto|]). contradiction.
Qed.

(** A message between two living processes: whoever runs when, both return with success and the receiver has the values that were sent;
    they never wait for each other forever, and no message is left over. *)
Theorem C124_exchange : forall tag v schedule, let h := handRun tag v SBegin RBegin schedule in
  (forall c l, hS h = SEnd c l -> c = CSuccess /\ l = false) /\
  (forall c d l, hR h = REnd c d l -> c = CSuccess /\ d = Some v /\ l = false) /\
  (stuck tag v h -> h = Handshake (SEnd CSuccess false) (REnd CSuccess (Some v) false) [] [] [] []).
Proof.
  intros tag v schedule h. assert (I := exchange_inv tag v schedule). fold h in I. revert I. generalize h. clear. intros h H. unfold exchangeStates in H. cbn [In] in H.
  repeat (destruct H as [<-|H]; [split; [|split]; [cbn [hS]; unfold okS; intros; try discriminate; match goal with X : _ = SEnd _ _ |- _ => injection X as <- <- end; auto
    |cbn [hR]; unfold okR; intros; try discriminate; match goal with X : _ = REnd _ _ _ |- _ => injection X as <- <- <- end; auto
    |unfold stuck, senderStep, receiverStep, okS, okR, alive; hsteps; intros [X Y]; try discriminate; auto]|]). contradiction.
Qed.

(** How many steps are left for both. *)
Definition leftS (s : senderAt) : nat := match s with SBegin => 3 | SLoop => 2 | SReal => 1 | _ => 0 end.
Definition leftR (r : receiverAt) : nat := match r with RProbe => 5 | RProbeWait => 4 | RBegin => 3 | RLoop => 2 | RReal => 1 | _ => 0 end.

(** Every step that is possible brings them closer to the end: at most six in all. *)
Theorem C124_exchange_ends : forall tag v schedule (b : bool) h', let h := handRun tag v SBegin RBegin schedule in
  (if b then senderStep tag v h else receiverStep tag h) = Some h' -> (leftS (hS h') + leftR (hR h') < leftS (hS h) + leftR (hR h) <= 6)%nat.
Proof.
  intros tag v schedule b h' h. assert (I := exchange_inv tag v schedule). fold h in I. revert I. generalize h. clear. intros h H. unfold exchangeStates in H. cbn [In] in H.
  repeat (destruct H as [<-|H]; [destruct b; unfold senderStep, receiverStep, okS, okR, alive; hsteps; intros X; try discriminate; injection X as <-; cbn; lia|]). contradiction.
Qed.

(** A message to a dead process: the sender returns MPI_ERR_PROC_FAILED, takes the partner as dead, and does not wait forever. *)
Theorem C124_dead_receiver : forall tag v schedule, let h := handRun tag v SBegin RDead schedule in
  (forall c l, hS h = SEnd c l -> c = CFailed /\ l = true) /\ (stuck tag v h -> h = Handshake (SEnd CFailed true) RDead [] [] [] []).
Proof.
  intros tag v schedule h.
  assert (I : In h [Handshake SBegin RDead [] [] [] []; Handshake SLoop RDead (alive tag) [] [] []; Handshake SLoop RDead [] (dead tag) [] []; Handshake (SEnd CFailed true) RDead [] [] [] []]).
  { unfold h. pattern (handRun tag v SBegin RDead schedule). apply run_invariant; [now left|]. clear. intros h b H. cbn [In] in H.
    repeat (destruct H as [<-|H]; [destruct b; unfold handStep, senderStep, receiverStep, alive, dead; hsteps; cbn [In]; tauto|]). contradiction. }
  revert I. generalize h. clear. intros h H. cbn [In] in H.
  repeat (destruct H as [<-|H]; [split; [cbn [hS]; intros; try discriminate; match goal with X : _ = SEnd _ _ |- _ => injection X as <- <- end; auto
    |unfold stuck, senderStep, receiverStep, alive, dead; hsteps; intros [X Y]; try discriminate; auto]|]). contradiction.
Qed.

(** A message from a dead process. *)
Theorem C124_dead_sender : forall tag v schedule, let h := handRun tag v SDead RBegin schedule in
  (forall c d l, hR h = REnd c d l -> c = CFailed /\ d = None /\ l = true) /\ (stuck tag v h -> h = Handshake SDead (REnd CFailed None true) [] [] [] []).
Proof.
  intros tag v schedule h.
  assert (I : In h [Handshake SDead RBegin [] [] [] []; Handshake SDead RLoop [] (alive tag) [] []; Handshake SDead RLoop (dead tag) [] [] []; Handshake SDead (REnd CFailed None true) [] [] [] []]).
  { unfold h. pattern (handRun tag v SDead RBegin schedule). apply run_invariant; [now left|]. clear. intros h b H. cbn [In] in H.
    repeat (destruct H as [<-|H]; [destruct b; unfold handStep, senderStep, receiverStep, alive, dead; hsteps; cbn [In]; tauto|]). contradiction. }
  revert I. generalize h. clear. intros h H. cbn [In] in H.
  repeat (destruct H as [<-|H]; [split; [cbn [hR]; intros; try discriminate; match goal with X : _ = REnd _ _ _ |- _ => injection X as <- <- <- end; auto
    |unfold stuck, senderStep, receiverStep, alive, dead; hsteps; intros [X Y]; try discriminate; auto]|]). contradiction.
Qed.

(** Probing for a message: the request has the tag of the message, the sender looks for the tag with the offset. Whoever runs when,
    neither Probe nor Send returns, also if the sender is dead. *)
Theorem C124_probe_refuted :
  (forall tag v schedule, let h := handRun tag v SBegin RProbe schedule in
    (hR h = RProbe \/ hR h = RProbeWait) /\ (hS h = SBegin \/ hS h = SLoop)) /\
  (forall tag v schedule, let h := handRun tag v SDead RProbe schedule in hR h = RProbe \/ hR h = RProbeWait) /\
  ~ (forall tag v schedule, let h := handRun tag v SBegin RProbe schedule in stuck tag v h -> exists c d l, hR h = REnd c d l).
Proof.
  assert (A : forall tag v schedule, In (handRun tag v SBegin RProbe schedule)
    [Handshake SBegin RProbe [] [] [] []; Handshake SLoop RProbe (alive tag) [] [] []; Handshake SBegin RProbeWait [] [(tag, HProbe)] [] [];
     Handshake SLoop RProbeWait (alive tag) [(tag, HProbe)] [] []]).
  { intros tag v schedule. pattern (handRun tag v SBegin RProbe schedule). apply run_invariant; [now left|]. intros h b H. cbn [In] in H.
    repeat (destruct H as [<-|H]; [destruct b; unfold handStep, senderStep, receiverStep, alive; hsteps; cbn [In]; tauto|]). contradiction. }
  assert (B : forall tag v schedule, In (handRun tag v SDead RProbe schedule)
    [Handshake SDead RProbe [] [] [] []; Handshake SDead RProbeWait [] [(tag, HProbe)] [] []; Handshake SDead RProbeWait [] [] [] []]).
  { intros tag v schedule. pattern (handRun tag v SDead RProbe schedule). apply run_invariant; [now left|]. intros h b H. cbn [In] in H.
    repeat (destruct H as [<-|H]; [destruct b; unfold handStep, senderStep, receiverStep, alive; hsteps; cbn [In]; tauto|]). contradiction. }
  split; [|split].
  - intros tag v schedule h. specialize (A tag v schedule). fold h in A. cbn [In] in A. repeat (destruct A as [<-|A]; [cbn; auto|]). contradiction.
  - intros tag v schedule h. specialize (B tag v schedule). fold h in B. cbn [In] in B. repeat (destruct B as [<-|B]; [cbn; auto|]). contradiction.
  - intros H. specialize (H 5 [1; 2] [true; false]). cbv zeta in H. destruct H as (c & d & l & E); [split; reflexivity|vm_compute in E; discriminate].
Qed.

(** The receiver starts first, polls in vain, and gets the values; a dead receiver is found out. *)
Example C124_ex : let h := handRun 7 [4; 5; 6] SBegin RBegin [false; false; true; false; true; false; true; false] in
  hS h = SEnd CSuccess false /\ hR h = REnd CSuccess (Some [4; 5; 6]) false /\
  hS (handRun 7 [4; 5; 6] SBegin RDead [true; true; false; true]) = SEnd CFailed true /\
  hR (handRun 7 [4; 5; 6] SBegin RProbe [false; true; false; true; false; true]) = RProbeWait.
Proof. vm_compute. repeat split. Qed.

Print Assumptions C124_exchange.
Print Assumptions C124_exchange_ends.
Print Assumptions C124_dead_receiver.
Print Assumptions C124_dead_sender.
Print Assumptions C124_probe_refuted.
