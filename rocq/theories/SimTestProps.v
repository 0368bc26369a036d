(** C123: testing and waiting for requests in the fault simulator. *)
From Verif Require Import Base SimTestModel.
Open Scope Z_scope.
Ltac Zify.zify_post_hook ::= idtac.

(** The environment shows that a request with this partner cannot succeed. *)
Definition bad (partner : option Z) (e : testEnv) : Prop :=
  eRevoked e = true \/ match partner with Some q => In q (eDead e) | None => eDead e <> [] /\ eAcked e = false end.

Lemma bad_dec : forall partner e, {bad partner e} + {~ bad partner e}.
Proof.
  intros partner e. unfold bad. destruct (eRevoked e); [left; now left|]. destruct partner as [q|].
  - destruct (in_dec Z.eq_dec q (eDead e)); [left; now right|right; intros [X|X]; [discriminate|auto]].
  - destruct (eDead e) as [|x l]; [right; intros [X|[X _]]; [discriminate|auto]|]. destruct (eAcked e); [right; intros [X|[_ X]]; discriminate|left; right; split; [discriminate|auto]].
Qed.

(** A test in a bad environment ends the request with an error. *)
Lemma test_bad : forall partner a c x e, bad partner e ->
  exists r, testRequest e (Points (Request (P2P partner) a c x)) = Some r /\ tFlag r = true /\ tLearned r = [] /\
    (tRet r = CRevoked <-> eRevoked e = true) /\ (tRet r = CPending <-> eRevoked e = false /\ partner = None) /\
    (tRet r = CFailed <-> eRevoked e = false /\ partner <> None) /\ tRet r <> CSuccess.
Proof.
  intros partner a c x e B. unfold testRequest. cbn [rKind]. destruct (eRevoked e) eqn:R.
  - eexists; split; [reflexivity|]. cbn. repeat split; try congruence; intros [X _]; discriminate.
  - destruct B as [B|B]; [congruence|]. destruct partner as [q|].
    + replace (existsb (Z.eqb q) (eDead e)) with true by (symmetry; apply existsb_exists; exists q; split; auto; apply Z.eqb_refl).
      eexists; split; [reflexivity|]. cbn. repeat split; try congruence. intros [_ X]; congruence.
    + destruct B as [D A]. replace (negb (Nat.eqb (length (eDead e)) 0)) with true by (destruct (eDead e); [congruence|reflexivity]). rewrite A. cbn [negb andb].
      eexists; split; [reflexivity|]. cbn. repeat split; try congruence. intros [_ X]; congruence.
Qed.

Lemma test_good : forall partner a c x e, ~ bad partner e ->
  testRequest e (Points (Request (P2P partner) a c x)) =
  (if negb c then
     if eFlag e then Some (TestResult (Points (Request (P2P partner) false true (eRet e))) false (eRet e) [] [])
     else Some (TestResult (Points (Request (P2P partner) a c x)) false (eRet e) [] [])
   else match eProbe e with
        | None => Some (TestResult (Points (Request (P2P partner) a c x)) false CSuccess [] [])
        | Some (src, m) =>
            let answered := match partner with None => [src] | Some _ => [] end in
            match m with
            | MAlive | MAliveNB => Some (TestResult RequestNull true x [] answered)
            | MRevoked => Some (TestResult RequestNull true CRevoked [] answered)
            | MDead => Some (TestResult RequestNull true CFailed [src] answered)
            end
        end).
Proof.
  intros partner a c x e B. unfold testRequest. cbn [rKind rCompleted rCode]. unfold bad in B. destruct (eRevoked e) eqn:R; [exfalso; apply B; now left|].
  destruct partner as [q|].
  - destruct (existsb (Z.eqb q) (eDead e)) eqn:E; [|reflexivity]. exfalso. apply B. right. apply existsb_exists in E as (y & Hy & E). apply Z.eqb_eq in E. now subst.
  - destruct (eDead e) as [|y l] eqn:D; [reflexivity|]. destruct (eAcked e) eqn:A; [reflexivity|]. exfalso. apply B. right. split; [discriminate|auto].
Qed.

Lemma in_firstn : forall {A} (l : list A) k i e, nth_error l k = Some e -> (k < i)%nat -> In e (firstn i l).
Proof. intros A l. induction l as [|x l IH]; intros [|k] [|i] e N H; cbn in *; try discriminate; try lia; [injection N as ->; now left|right; apply IH with k; auto; lia]. Qed.

(** The result of the tests before the request is complete and after it. *)
Lemma wait_completed : forall envs k partner x, match waitFrom k envs (Points (Request (P2P partner) false true x)) with
  | Crashed => False
  | Waiting v => v = Points (Request (P2P partner) false true x) /\ Forall (fun e => ~ bad partner e /\ eProbe e = None) envs
  | Returned n r => exists i e, n = (k + i)%nat /\ nth_error envs i = Some e /\ Forall (fun e => ~ bad partner e /\ eProbe e = None) (firstn i envs) /\
      testRequest e (Points (Request (P2P partner) false true x)) = Some r /\ (bad partner e \/ exists m, eProbe e = Some m)
  end.
Proof.
  induction envs as [|e envs IH]; intros k partner x; cbn [waitFrom]; [split; [reflexivity|constructor]|].
  destruct (bad_dec partner e) as [B|B].
  - destruct (test_bad partner false true x e B) as (r & E & F & _). rewrite E, F. exists 0%nat, e. rewrite Nat.add_0_r. repeat split; auto. constructor.
  - rewrite (test_good _ _ _ _ _ B). cbn [negb]. destruct (eProbe e) as [[src m]|] eqn:P.
    + destruct m; cbn [tFlag]; exists 0%nat, e; rewrite Nat.add_0_r; (split; [reflexivity|]); (split; [reflexivity|]); (split; [constructor|]);
        (split; [rewrite (test_good _ _ _ _ _ B), P; reflexivity|right; eauto]).
    + cbn [tFlag tVar]. specialize (IH (S k) partner x). destruct (waitFrom (S k) envs _) as [v| |n r]; auto.
      * destruct IH as [-> F]. split; auto.
      * destruct IH as (i & e' & -> & N & F & T & O). exists (S i), e'. split; [lia|]. split; [exact N|]. split; [cbn; constructor; auto|]. auto.
Qed.

Lemma wait_new : forall envs k partner x, match waitFrom k envs (Points (Request (P2P partner) true false x)) with
  | Crashed => False
  | Waiting v => Forall (fun e => ~ bad partner e) envs
  | Returned n r => exists i e, n = (k + i)%nat /\ nth_error envs i = Some e /\ Forall (fun e => ~ bad partner e) (firstn i envs) /\
      ((bad partner e /\ tLearned r = [] /\ (tRet r = CRevoked <-> eRevoked e = true) /\ (tRet r = CPending <-> eRevoked e = false /\ partner = None) /\
          (tRet r = CFailed <-> eRevoked e = false /\ partner <> None) /\ tRet r <> CSuccess) \/
       (~ bad partner e /\ exists c ec src m, (c < i)%nat /\ nth_error envs c = Some ec /\ eFlag ec = true /\ eProbe e = Some (src, m) /\
          Forall (fun e => eFlag e = false) (firstn c envs) /\
          tRet r = (match m with MAlive | MAliveNB => eRet ec | MRevoked => CRevoked | MDead => CFailed end) /\
          tLearned r = (match m with MDead => [src] | _ => [] end) /\ tAnswered r = (match partner with None => [src] | Some _ => [] end)))
  end.
Proof.
  induction envs as [|e envs IH]; intros k partner x; cbn [waitFrom]; [constructor|].
  destruct (bad_dec partner e) as [B|B].
  - destruct (test_bad partner true false x e B) as (r & E & F & O). rewrite E, F. exists 0%nat, e. rewrite Nat.add_0_r. split; [reflexivity|]. split; [reflexivity|]. split; [constructor|]. left. auto.
  - rewrite (test_good _ _ _ _ _ B). cbn [negb]. destruct (eFlag e) eqn:FL; cbn [tFlag tVar].
    + assert (C := wait_completed envs (S k) partner (eRet e)). destruct (waitFrom (S k) envs _) as [v| |n r]; auto.
      * destruct C as [-> C]. constructor; auto. eapply Forall_impl; [|exact C]. cbn. tauto.
      * destruct C as (i & e' & -> & N & F & T & O). exists (S i), e'. split; [lia|]. split; [exact N|].
        split; [cbn; constructor; auto; eapply Forall_impl; [|exact F]; cbn; tauto|].
        destruct (bad_dec partner e') as [B'|B'].
        -- left. split; auto. destruct (test_bad partner false true (eRet e) e' B') as (r' & E' & _ & O'). rewrite T in E'. injection E' as <-. exact O'.
        -- right. split; auto. destruct O as [O|[[src m] P]]; [contradiction|]. exists 0%nat, e, src, m. split; [lia|]. split; [reflexivity|]. split; [auto|].
           rewrite (test_good _ _ _ _ _ B') in T. cbn [negb] in T. rewrite P in T. split; [auto|]. split; [constructor|].
           destruct m; injection T as <-; cbn; auto.
    + specialize (IH (S k) partner x). destruct (waitFrom (S k) envs _) as [v| |n r]; auto.
      destruct IH as (i & e' & -> & N & F & O). exists (S i), e'. split; [lia|]. split; [exact N|]. split; [cbn; constructor; auto|].
      destruct O as [O|(B' & c & ec & src & m & Hc & Nc & Fc & P & FF & R)]; [left; auto|right]. split; auto.
      exists (S c), ec, src, m. split; [lia|]. split; [exact Nc|]. split; [auto|]. split; [auto|]. split; [cbn; constructor; auto|]. exact R.
Qed.

(** Waiting succeeds only if the operation completed with success in one test and in a later one a message from a living partner was
    there, while in no test the communicator was revoked or the partner known to be dead. *)
Theorem C123_success : forall partner envs n r, waitRequest envs (newRequest partner) = Returned n r -> tRet r = CSuccess ->
  (exists c ec e src m, (c < n)%nat /\ nth_error envs c = Some ec /\ eFlag ec = true /\ eRet ec = CSuccess /\
     nth_error envs n = Some e /\ eProbe e = Some (src, m) /\ (m = MAlive \/ m = MAliveNB)) /\
  (forall k e, (k <= n)%nat -> nth_error envs k = Some e -> ~ bad partner e) /\ tLearned r = [] /\ tVar r = RequestNull.
Proof.
  intros partner envs n r W S. pose proof (wait_new envs 0 partner (COther (-1))) as H. unfold waitRequest, newRequest in W. rewrite W in H.
  destruct H as (i & e & -> & N & F & O). cbn [Nat.add] in *. destruct O as [O|(B & c & ec & src & m & Hc & Nc & Fc & P & _ & R & LE & _)]; [tauto|].
  assert (M : (m = MAlive \/ m = MAliveNB) /\ eRet ec = CSuccess) by (destruct m; rewrite S in R; try discriminate; auto).
  destruct M as [M EC]. split; [exists c, ec, e, src, m; auto 10|]. split.
  - intros k e' Hk Nk. destruct (Nat.eq_dec k i) as [->|NE]; [congruence|]. rewrite Forall_forall in F. apply F.
    apply in_firstn with k; auto. lia.
  - split; [destruct M as [-> | ->]; exact LE|]. clear - W P B N Hc S.
    assert (X : forall envs k v n r, waitFrom k envs v = Returned n r -> tRet r = CSuccess -> (exists q a c x, v = Points (Request (P2P q) a c x)) -> tVar r = RequestNull).
    { clear. induction envs as [|e envs IH]; intros k v n r W S (q & a & c & x & ->); cbn [waitFrom] in W; [discriminate|].
      destruct (bad_dec q e) as [B|B].
      - destruct (test_bad q a c x e B) as (r' & E & F & _ & _ & _ & _ & NS). rewrite E, F in W. injection W as _ <-. contradiction.
      - rewrite (test_good _ _ _ _ _ B) in W. destruct c; cbn [negb] in W.
        + destruct (eProbe e) as [[src m]|]; [destruct m; cbn [tFlag] in W; injection W as _ <-; auto|]. cbn [tFlag tVar] in W. eapply IH; eauto 6.
        + destruct (eFlag e); cbn [tFlag tVar] in W; eapply IH; eauto 6. }
    eapply X; eauto 6.
Qed.

(** Waiting returns in the first test at which the communicator is revoked or the partner known to be dead at the latest. *)
Theorem C123_returns : forall partner envs k e, nth_error envs k = Some e -> bad partner e ->
  exists n r, waitRequest envs (newRequest partner) = Returned n r /\ (n <= k)%nat.
Proof.
  intros partner envs k e N B. pose proof (wait_new envs 0 partner (COther (-1))) as H. unfold waitRequest, newRequest.
  destruct (waitFrom 0 envs _) as [v| |n r]; [|contradiction|].
  - rewrite Forall_forall in H. exfalso. apply (H e); auto. now apply nth_error_In in N.
  - destruct H as (i & e' & -> & N' & F & _). exists i, r. split; [reflexivity|]. destruct (Nat.le_gt_cases i k) as [|G]; auto. exfalso.
    rewrite Forall_forall in F. apply (F e); auto. apply in_firstn with k; auto.
Qed.

(** Nothing bad happens, the operation completes and the partner's message comes after it: waiting returns. *)
Theorem C123_progress : forall partner envs c ec k e m, nth_error envs c = Some ec -> eFlag ec = true ->
  (c < k)%nat -> nth_error envs k = Some e -> eProbe e = Some m -> exists n r, waitRequest envs (newRequest partner) = Returned n r /\ (n <= k)%nat.
Proof.
  intros partner envs c ec k e m Nc Fc Hck Nk P. unfold waitRequest, newRequest.
  enough (X : forall envs c k j x, nth_error envs c = Some ec -> (c < k)%nat -> nth_error envs k = Some e ->
    exists n r, waitFrom j envs (Points (Request (P2P partner) true false x)) = Returned n r /\ (n <= j + k)%nat) by (apply (X envs c k 0%nat _ Nc Hck Nk)).
  clear envs c k Nc Hck Nk.
  assert (C : forall envs k j x, nth_error envs k = Some e -> exists n r, waitFrom j envs (Points (Request (P2P partner) false true x)) = Returned n r /\ (n <= j + k)%nat).
  { intros envs k j x N. pose proof (wait_completed envs j partner x) as H. destruct (waitFrom j envs _) as [v| |n r]; [|contradiction|].
    - destruct H as [_ H]. rewrite Forall_forall in H. apply nth_error_In in N. apply H in N as [_ N]. congruence.
    - exists n, r. split; auto. destruct H as (i & e' & -> & N' & F & _). destruct (Nat.le_gt_cases i k) as [|G]; [lia|]. exfalso.
      rewrite Forall_forall in F. assert (I : In e (firstn i envs)); [|apply F in I as [_ I]; congruence].
      apply in_firstn with k; auto. }
  induction envs as [|e0 envs IH]; intros c k j x Nc Hck Nk; [destruct c; discriminate|]. destruct k as [|k]; [lia|]. cbn [nth_error] in Nk.
  cbn [waitFrom]. destruct (bad_dec partner e0) as [B|B].
  - destruct (test_bad partner true false x e0 B) as (r & E & F & _). rewrite E, F. exists j, r. split; [reflexivity|lia].
  - rewrite (test_good _ _ _ _ _ B). cbn [negb]. destruct (eFlag e0) eqn:F0; cbn [tFlag tVar].
    + destruct (C envs k (S j) (eRet e0) Nk) as (n & r & W & L). exists n, r. split; [auto|lia].
    + destruct c as [|c]; [cbn [nth_error] in Nc; congruence|]. destruct (IH c k (S j) x Nc ltac:(lia) Nk) as (n & r & W & L). exists n, r. split; [auto|lia].
Qed.

(** If waiting returns because of the communicator or the partner, the code says which. *)
Theorem C123_error_code : forall partner envs n r e, waitRequest envs (newRequest partner) = Returned n r -> nth_error envs n = Some e -> bad partner e ->
  tRet r = (if eRevoked e then CRevoked else match partner with Some _ => CFailed | None => CPending end).
Proof.
  intros partner envs n r e W N B. pose proof (wait_new envs 0 partner (COther (-1))) as H. unfold waitRequest, newRequest in W. rewrite W in H.
  destruct H as (i & e' & -> & N' & _ & O). cbn [Nat.add] in N. rewrite N in N'. injection N' as <-.
  destruct O as [(_ & _ & HR & HP & HF & _)|(NB & _)]; [|contradiction]. destruct (eRevoked e); [now apply HR|].
  destruct partner as [q|]; [apply HF; split; [auto|discriminate]|now apply HP].
Qed.

(** A process is inserted into the dead ones only if a message from it says neither that it is alive nor that the communicator is
    revoked; waiting then returns MPI_ERR_PROC_FAILED. *)
Theorem C123_learned : forall partner envs n r q, waitRequest envs (newRequest partner) = Returned n r -> In q (tLearned r) ->
  (exists e, nth_error envs n = Some e /\ eProbe e = Some (q, MDead)) /\ tRet r = CFailed.
Proof.
  intros partner envs n r q W I. pose proof (wait_new envs 0 partner (COther (-1))) as H. unfold waitRequest, newRequest in W. rewrite W in H.
  destruct H as (i & e & -> & N & F & O). destruct O as [(_ & L & _)|(B & c & ec & src & m & Hc & Nc & Fc & P & _ & R & LE & _)]; [rewrite L in I; destruct I|].
  rewrite LE in I. destruct m; try destruct I as []; try contradiction. subst. split; [eauto|auto].
Qed.

(** Waiting that ends with a message sends an alive message to its source exactly if the source was any. *)
Theorem C123_answered : forall partner envs n r, waitRequest envs (newRequest partner) = Returned n r ->
  forall e src m, nth_error envs n = Some e -> ~ bad partner e -> eProbe e = Some (src, m) ->
  tAnswered r = (match partner with None => [src] | Some _ => [] end).
Proof.
  intros partner envs n r W e src m N B P. pose proof (wait_new envs 0 partner (COther (-1))) as H. unfold waitRequest, newRequest in W. rewrite W in H.
  destruct H as (i & e' & -> & N' & _ & O). cbn [Nat.add] in N. rewrite N in N'. injection N' as <-.
  destruct O as [(BB & _)|(_ & c & ec & src' & m' & _ & _ & _ & P' & _ & _ & _ & A)]; [contradiction|]. rewrite P in P'. injection P' as <- <-. exact A.
Qed.

(** Waiting for a collective operation does not end if a process is known to be dead: the flag is never set. *)
Theorem C123_collective_refuted : ~ (forall r envs k e, rKind r = Collective -> nth_error envs k = Some e -> eDead e <> [] ->
  exists n t, waitRequest envs (Points r) = Returned n t) /\
  (forall r envs, rKind r = Collective -> Forall (fun e => eDead e <> []) envs -> waitRequest envs (Points r) = Waiting (Points r)).
Proof.
  assert (X : forall r envs, rKind r = Collective -> Forall (fun e => eDead e <> []) envs -> waitRequest envs (Points r) = Waiting (Points r)).
  { intros r envs K F. unfold waitRequest. generalize 0%nat. induction F as [|e envs D F IH]; intros k; cbn [waitFrom]; [reflexivity|].
    unfold testRequest. rewrite K. destruct (eDead e) as [|q l]; [congruence|]. cbn [length Nat.eqb negb tFlag tVar]. apply IH. }
  split; [|exact X]. intros H. set (e := TestEnv false [3] false true CSuccess None).
  destruct (H (Request Collective true false CSuccess) [e] 0%nat e eq_refl eq_refl) as (n & t & W); [discriminate|]. vm_compute in W. discriminate.
Qed.

(** Waiting for a request that is already complete does not end, and testing one that was ended by an error before it completed follows
    the null pointer. *)
Theorem C123_again_refuted :
  (forall envs, waitRequest envs RequestNull = Waiting RequestNull) /\
  (forall partner e e' r, bad partner e -> testRequest e (newRequest partner) = Some r -> testRequest e' (tVar r) = None).
Proof.
  split.
  - intros envs. unfold waitRequest. generalize 0%nat. induction envs as [|e envs IH]; intros k; cbn; auto.
  - intros partner e e' r B T. unfold newRequest in T. unfold testRequest in T. cbn [rKind rCompleted] in T. destruct (eRevoked e) eqn:R; [injection T as <-; reflexivity|].
    destruct B as [B|B]; [congruence|]. destruct partner as [q|].
    + replace (existsb (Z.eqb q) (eDead e)) with true in T by (symmetry; apply existsb_exists; exists q; split; auto; apply Z.eqb_refl). injection T as <-. reflexivity.
    + destruct B as [D A]. rewrite A in T. destruct (eDead e); [congruence|]. cbn in T. injection T as <-. reflexivity.
Qed.

(** Waiting for all of one or more requests never returns: an element of the set is erased while iterating over it. *)
Theorem C123_waitall_refuted : forall envs vars active todo c, active <> [] -> waitallFrom envs vars active todo <> AllReturned c.
Proof.
  induction envs as [|e envs IH]; intros vars active todo c A; cbn [waitallFrom]; [discriminate|].
  destruct todo as [|i rest].
  - destruct active as [|i rest]; [congruence|]. destruct (testRequest e (vars i)) as [r|]; [|discriminate]. destruct (tFlag r); [discriminate|]. now apply IH.
  - destruct (testRequest e (vars i)) as [r|]; [|discriminate]. destruct (tFlag r); [discriminate|]. now apply IH.
Qed.

(** The operation completes in the second test, the partner's message is there in the fourth; and the partner dies before. *)
Example C123_ex : let quiet := TestEnv false [] false false CSuccess None in let done := TestEnv false [] false true CSuccess None in
  waitRequest [quiet; done; quiet; TestEnv false [5] false false CSuccess (Some (2, MAliveNB))] (newRequest (Some 2)) =
    Returned 3 (TestResult RequestNull true CSuccess [] []) /\
  waitRequest [quiet; done; TestEnv false [5] false false CSuccess (Some (2, MAlive))] (newRequest None) =
    Returned 2 (TestResult (Points (Request (P2P None) false true CSuccess)) true CPending [] []) /\
  waitRequest [done; TestEnv false [] false false CSuccess (Some (2, MDead))] (newRequest (Some 2)) =
    Returned 1 (TestResult RequestNull true CFailed [2] []).
Proof. vm_compute. repeat split. Qed.

Print Assumptions C123_success.
Print Assumptions C123_returns.
Print Assumptions C123_progress.
Print Assumptions C123_error_code.
Print Assumptions C123_learned.
Print Assumptions C123_answered.
Print Assumptions C123_collective_refuted.
Print Assumptions C123_again_refuted.
Print Assumptions C123_waitall_refuted.
