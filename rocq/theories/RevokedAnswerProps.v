(** C127: answers to partners in a revoked communicator. *)
From Verif Require Import Base SimTestModel RevokedAnswerModel.
Open Scope Z_scope.

(** [q] told [p] that it is alive and waits for the answer with tag [t]; [p] told [q] that the communicator is revoked. *)
Definition asks (q p t : Z) (m : msg) : bool :=
  (mFrom m =? q) && (mTo m =? p) && (mTag m =? t) && match mContent m with Status MAlive | Status MAliveNB => true | _ => false end.
Definition tells (p q t : Z) (m : msg) : bool :=
  (mFrom m =? p) && (mTo m =? q) && (mTag m =? t) && match mContent m with Status MRevoked => true | _ => false end.
(** [q] sent its part of a reduction to [p]; [p] told [q] that the next operation is that the communicator is revoked. *)
Definition reduces (q p : Z) (m : msg) : bool := (mFrom m =? q) && (mTo m =? p) && (mTag m =? 1009) && match mContent m with Reduction => true | _ => false end.
Definition tellsNext (p q : Z) (m : msg) : bool := (mFrom m =? p) && (mTo m =? q) && (mTag m =? 990) && match mContent m with NextRevoked => true | _ => false end.
Definition number (f : msg -> bool) (l : list msg) : nat := length (filter f l).
(** The messages of others. *)
Definition posted (es : list bgEvent) : list msg := flat_map (fun e => match e with Post m => [m] | _ => [] end) es.

Lemma number_app : forall f a b, number f (a ++ b) = (number f a + number f b)%nat.
Proof. intros. unfold number. rewrite filter_app, app_length. reflexivity. Qed.

Lemma takeNth_spec : forall f i net, match takeNth f i net with
  | None => (number f net <= i)%nat
  | Some (m, rest) => f m = true /\ exists a b, net = a ++ m :: b /\ rest = a ++ b
  end.
Proof.
  intros f i net. revert i. induction net as [|m net IH]; intros i; cbn; [unfold number; cbn; lia|].
  destruct (f m) eqn:F.
  - destruct i as [|i]. { split; [exact F|]. exists [], net. auto. }
    specialize (IH i). destruct (takeNth f i net) as [[x r]|].
    + destruct IH as (X & a & b & -> & ->). split; [exact X|]. exists (m :: a), b. auto.
    + unfold number in *. cbn. try rewrite F. cbn. lia.
  - specialize (IH i). destruct (takeNth f i net) as [[x r]|].
    + destruct IH as (X & a & b & -> & ->). split; [exact X|]. exists (m :: a), b. auto.
    + unfold number in *. cbn. try rewrite F. exact IH.
Qed.

(** What a call does: it takes at most one status message and at most one reduction. *)
Lemma background_spec : forall p i j net net' out, backgroundRevoked p i j net = (net', out) -> exists l1 l2 mid rest,
  (forall f, number f net = number f l1 + number f mid)%nat /\ (forall f, number f mid = number f l2 + number f rest)%nat /\
  net' = rest ++ out /\ out = flat_map (answerStatus p) l1 ++ flat_map (answerReduction p) l2 /\
  (l1 = [] /\ (number (isStatusTo p) net <= i)%nat /\ mid = net \/ exists m, l1 = [m] /\ isStatusTo p m = true) /\
  (l2 = [] /\ (number (isReductionTo p) mid <= j)%nat /\ rest = mid \/ exists m, l2 = [m] /\ isReductionTo p m = true).
Proof.
  assert (N : forall f a b (m : msg), number f (a ++ m :: b) = (number f [m] + number f (a ++ b))%nat).
  { intros. change (m :: b) with ([m] ++ b). rewrite !number_app. lia. }
  intros p i j net net' out H. unfold backgroundRevoked in H.
  pose proof (takeNth_spec (isStatusTo p) i net) as T1. destruct (takeNth (isStatusTo p) i net) as [[m1 r1]|].
  - destruct T1 as (F1 & a & b & -> & ->). pose proof (takeNth_spec (isReductionTo p) j (a ++ b)) as T2.
    destruct (takeNth (isReductionTo p) j (a ++ b)) as [[m2 r2]|]; injection H as <- <-.
    + destruct T2 as (F2 & a2 & b2 & E & ->). exists [m1], [m2], (a ++ b), (a2 ++ b2). cbn [flat_map]. rewrite app_nil_r.
      repeat split; auto; try (right; eexists; split; [reflexivity|assumption]); intros; first [apply N|rewrite E; apply N].
    + exists [m1], [], (a ++ b), (a ++ b). cbn [flat_map]. rewrite !app_nil_r. repeat split; auto; try (right; eexists; split; [reflexivity|assumption]); intros; apply N.
  - pose proof (takeNth_spec (isReductionTo p) j net) as T2.
    destruct (takeNth (isReductionTo p) j net) as [[m2 r2]|]; injection H as <- <-.
    + destruct T2 as (F2 & a2 & b2 & E & ->). exists [], [m2], net, (a2 ++ b2). cbn [flat_map app].
      repeat split; auto; try (right; eexists; split; [reflexivity|assumption]); intros; first [apply N|rewrite E; apply N].
    + exists [], [], net, net. cbn [flat_map app]. rewrite !app_nil_r. repeat split; auto.
Qed.

Lemma one_call : forall p i j net net' out q p' t, backgroundRevoked p i j net = (net', out) ->
  number (asks q p' t) net = (number (asks q p' t) net' + number (tells p' q t) out)%nat /\
  number (reduces q p') net = (number (reduces q p') net' + number (tellsNext p' q) out)%nat.
Proof.
  intros p i j net net' out q p' t H. destruct (background_spec _ _ _ _ _ _ H) as (l1 & l2 & mid & rest & N1 & N2 & -> & -> & O1 & O2).
  rewrite !number_app, (N1 (asks q p' t)), (N1 (reduces q p')), (N2 (asks q p' t)), (N2 (reduces q p')).
  assert (A : (number (asks q p' t) l1 = number (asks q p' t) (flat_map (answerStatus p) l1) + number (tells p' q t) (flat_map (answerStatus p) l1) /\
     number (reduces q p') l1 = number (reduces q p') (flat_map (answerStatus p) l1) + number (tellsNext p' q) (flat_map (answerStatus p) l1))%nat).
  { destruct O1 as [(-> & _)|([fr to tg c] & -> & F)]; [split; reflexivity|]. unfold isStatusTo in F. cbn in F. apply andb_true_iff in F. destruct F as [F G].
    apply Z.eqb_eq in F. subst to. destruct c as [[]| |]; try discriminate; unfold number, asks, tells, reduces, tellsNext; cbn;
      rewrite ?andb_false_r; cbn; split; try reflexivity; rewrite ?andb_true_r; cbn;
      destruct (fr =? q), (p =? p'), (tg =? t); reflexivity. }
  assert (B : (number (asks q p' t) l2 = number (asks q p' t) (flat_map (answerReduction p) l2) + number (tells p' q t) (flat_map (answerReduction p) l2) /\
     number (reduces q p') l2 = number (reduces q p') (flat_map (answerReduction p) l2) + number (tellsNext p' q) (flat_map (answerReduction p) l2))%nat).
  { destruct O2 as [(-> & _)|([fr to tg c] & -> & F)]; [split; reflexivity|]. unfold isReductionTo in F. cbn in F. apply andb_true_iff in F. destruct F as [F G].
    apply andb_true_iff in F. destruct F as [F K]. apply Z.eqb_eq in F, K. subst to tg.
    destruct c as [[]| |]; try discriminate; unfold number, asks, tells, reduces, tellsNext; cbn;
      rewrite ?andb_false_r; cbn; split; try reflexivity; rewrite ?andb_true_r; cbn; destruct (fr =? q), (p =? p'); reflexivity. }
  lia.
Qed.

(** Every alive message and every part of a reduction is answered exactly once, or still on the way. *)
Theorem C127_answers : forall es net net' log q p t, runBackground es net = (net', log) ->
  (number (asks q p t) (net ++ posted es) = number (asks q p t) net' + number (tells p q t) log)%nat /\
  (number (reduces q p) (net ++ posted es) = number (reduces q p) net' + number (tellsNext p q) log)%nat.
Proof.
  induction es as [|[p0 i j|m] es IH]; intros net net' log q p t H; cbn in H.
  - injection H as <- <-. cbn [posted flat_map]. rewrite app_nil_r. unfold number; cbn. lia.
  - destruct (backgroundRevoked p0 i j net) as [net1 out] eqn:E. destruct (runBackground es net1) as [net2 log'] eqn:R. injection H as <- <-.
    destruct (one_call _ _ _ _ _ _ q p t E) as [A B]. destruct (IH _ _ _ q p t R) as [C D].
    change (posted (Background p0 i j :: es)) with (posted es). rewrite !number_app in *. lia.
  - specialize (IH _ _ _ q p t H). rewrite <- !app_assoc in IH. exact IH.
Qed.

(** The calls send nothing else. *)
Theorem C127_nothing_else : forall es net net' log m, runBackground es net = (net', log) -> In m log ->
  exists q p t, tells p q t m = true \/ tellsNext p q m = true.
Proof.
  induction es as [|[p0 i j|x] es IH]; intros net net' log m H I; cbn in H.
  - injection H as <- <-. contradiction.
  - destruct (backgroundRevoked p0 i j net) as [net1 out] eqn:E. destruct (runBackground es net1) as [net2 log'] eqn:R. injection H as <- <-.
    apply in_app_or in I. destruct I as [I|I]; [|eauto]. destruct (background_spec _ _ _ _ _ _ E) as (l1 & l2 & mid & rest & _ & _ & _ & -> & _).
    apply in_app_or in I. destruct I as [I|I]; apply in_flat_map in I; destruct I as ([fr to tg c] & _ & I); cbn in I.
    + exists fr, p0, tg. left. destruct c as [[]| |]; cbn in I; try contradiction; destruct I as [<-|[]]; unfold tells; cbn; rewrite !Z.eqb_refl; reflexivity.
    + exists fr, p0, 0. right. destruct I as [<-|[]]. unfold tellsNext; cbn. rewrite !Z.eqb_refl. reflexivity.
  - eauto.
Qed.

(** An alive message counts twice, because its answer has to be taken too. *)
Definition pending (m : msg) : bool := match mContent m with Status _ => true | Reduction => (mTag m =? 1009) | NextRevoked => false end.
Definition alive (m : msg) : bool := match mContent m with Status MAlive | Status MAliveNB => true | _ => false end.
Definition work (net : list msg) : nat := (number pending net + number alive net)%nat.

Lemma call_work : forall p i j net net' out, backgroundRevoked p i j net = (net', out) ->
  (net' = net /\ out = [] /\ (number (isStatusTo p) net <= i /\ number (isReductionTo p) net <= j)%nat) \/ (work net' < work net)%nat.
Proof.
  intros p i j net net' out H. destruct (background_spec _ _ _ _ _ _ H) as (l1 & l2 & mid & rest & N1 & N2 & -> & -> & O1 & O2).
  unfold work. rewrite !number_app, (N1 pending), (N1 alive), (N2 pending), (N2 alive).
  assert (A : (l1 = [] \/ number pending (flat_map (answerStatus p) l1) + number alive (flat_map (answerStatus p) l1) < number pending l1 + number alive l1)%nat).
  { destruct O1 as [(-> & _)|([fr to tg c] & -> & F)]; [auto|]. right. unfold isStatusTo in F. cbn in F. apply andb_true_iff in F. destruct F as [F G].
    destruct c as [[]| |]; try discriminate; unfold number; cbn; lia. }
  assert (B : (l2 = [] \/ number pending (flat_map (answerReduction p) l2) + number alive (flat_map (answerReduction p) l2) < number pending l2 + number alive l2)%nat).
  { destruct O2 as [(-> & _)|([fr to tg c] & -> & F)]; [auto|]. right. unfold isReductionTo in F. cbn in F. apply andb_true_iff in F. destruct F as [F G].
    apply andb_true_iff in F. destruct F as [F K]. apply Z.eqb_eq in K. subst tg. destruct c as [[]| |]; try discriminate; unfold number; cbn; lia. }
  destruct O1 as [(-> & L1 & ->)|(m1 & -> & F1)]; destruct O2 as [(-> & L2 & ->)|(m2 & -> & F2)]; cbn [flat_map number filter length] in *.
  - left. rewrite !app_nil_r. auto.
  - right. destruct B as [B|B]; [discriminate|]. unfold number in *; cbn in *; lia.
  - right. destruct A as [A|A]; [discriminate|]. unfold number in *; cbn in *; lia.
  - right. destruct A as [A|A]; [discriminate|]. destruct B as [B|B]; [discriminate|]. unfold number in *; cbn in *; lia.
Qed.

(** The answers do not go on forever: at most twice as many calls as messages take something. When none of the processes [ps] can take
    anything any more, there is no status message and no reduction on the way to one of them, so that every question was answered. *)
Theorem C127_quiet : forall ps net,
  (forall calls net' log, runBackground (map (fun c => Background (fst (fst c)) (snd (fst c)) (snd c)) calls) net = (net', log) ->
     (forall k c, nth_error calls k = Some c -> forall n l, runBackground (map (fun c => Background (fst (fst c)) (snd (fst c)) (snd c)) (firstn k calls)) net = (n, l) ->
        fst (backgroundRevoked (fst (fst c)) (snd (fst c)) (snd c) n) <> n) -> (length calls <= 2 * length net)%nat) /\
  ((forall p, In p ps -> fst (backgroundRevoked p 0 0 net) = net) ->
     forall m, In m net -> In (mTo m) ps -> (exists c, mContent m = Status c) \/ mContent m = Reduction /\ mTag m = 1009 -> False).
Proof.
  intros ps net. split.
  - intros calls net' log R H.
    assert (W : (length calls <= work net)%nat).
    { revert net net' log R H. induction calls as [|[[p i] j] calls IH]; intros net net' log R H; [cbn; lia|]. cbn in R.
      destruct (backgroundRevoked p i j net) as [net1 out] eqn:E. destruct (runBackground (map _ calls) net1) as [net2 log'] eqn:R'.
      pose proof (H 0%nat _ eq_refl net [] eq_refl) as H0. cbn in H0. rewrite E in H0. cbn in H0.
      destruct (call_work _ _ _ _ _ _ E) as [(-> & _)|L]; [contradiction|].
      assert (X : (length calls <= work net1)%nat); [|cbn; lia]. apply (IH _ _ _ R'). intros k c Hk n l Rn. apply (H (S k) c Hk n (out ++ l)). cbn.
      rewrite E, Rn. reflexivity. }
    assert (B : forall f l, (number f l <= length l)%nat).
    { intros f l. unfold number. induction l as [|a l IH]; cbn; [lia|]. destruct (f a); cbn; lia. }
    pose proof (B pending net). pose proof (B alive net). unfold work in W. lia.
  - intros Q m I P C. specialize (Q _ P). destruct (backgroundRevoked (mTo m) 0 0 net) as [net' out] eqn:E. cbn in Q. subst net'.
    destruct (call_work _ _ _ _ _ _ E) as [(_ & _ & A & B)|L]; [|lia].
    assert (Z0 : forall f, (number f net <= 0)%nat -> f m = false).
    { intros f L. destruct (f m) eqn:F; [|reflexivity]. exfalso. assert (X : In m (filter f net)) by (apply filter_In; auto). unfold number in L.
      destruct (filter f net); [contradiction|cbn in L; lia]. }
    apply Z0 in A. apply Z0 in B. unfold isStatusTo, isReductionTo, reduceTag in *. rewrite Z.eqb_refl in *. destruct C as [[c C]|[C T]]; rewrite C in *.
    + discriminate.
    + rewrite T in B. discriminate.
Qed.

(** The remark "should always be true" of line 283 is wrong: two processes that send to each other get each other's answers. *)
Theorem C127_remark_refuted :
  ~ (forall es net log p i m rest, runBackground es [] = (net, log) -> (forall x, In x (posted es) -> mContent x = Status MAlive) ->
       takeNth (isStatusTo p) i net = Some (m, rest) -> mContent m = Status MAlive \/ mContent m = Status MAliveNB).
Proof.
  intros H. destruct (H [Post (Msg 1 2 7 (Status MAlive)); Background 2 0 0] [Msg 2 1 7 (Status MRevoked)] [Msg 2 1 7 (Status MRevoked)] 1 0%nat
    (Msg 2 1 7 (Status MRevoked)) []) as [X|X]; try reflexivity; try discriminate. intros x [<-|[]]. reflexivity.
Qed.

(** Process 2 answers two partners and a reduction. *)
Example C127_ex : let es := [Post (Msg 1 2 7 (Status MAlive)); Post (Msg 3 2 8 (Status MAliveNB)); Background 2 1 0; Post (Msg 0 2 1009 Reduction); Background 2 0 0] in
  runBackground es [] = ([Msg 2 3 8 (Status MRevoked); Msg 2 1 7 (Status MRevoked); Msg 2 0 990 NextRevoked],
                         [Msg 2 3 8 (Status MRevoked); Msg 2 1 7 (Status MRevoked); Msg 2 0 990 NextRevoked]) /\
  fst (backgroundRevoked 2 0 0 (fst (runBackground es []))) = fst (runBackground es []).
Proof. vm_compute. repeat split. Qed.

Print Assumptions C127_answers.
Print Assumptions C127_nothing_else.
Print Assumptions C127_quiet.
Print Assumptions C127_remark_refuted.
