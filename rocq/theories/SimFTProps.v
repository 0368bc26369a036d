(** C112: detection of dead processes in the fault simulator. *)
From Verif Require Import Base SimFTModel SimFTProofs.
Open Scope Z_scope.
Ltac Zify.zify_post_hook ::= idtac.

(** Successors and predecessors belong together, if the predecessors need not wrap around; so with root 0, which is the default. *)
Theorem C112_tree_partial : forall root n k p c, 0 <= root < n -> (0 < k)%nat -> (n - 2) / Z.of_nat k + root < n -> 0 <= p < n -> 0 <= c < n ->
  (In c (successors root p n k) <-> c <> root /\ predecessor root c n k = p).
Proof.
  intros root n k p c Hr Hk HB Hp Hc. rewrite (successors_spec root n k Hr Hk p c Hp). split.
  - intros (_ & H1 & H2). split; auto. now rewrite (predecessor_parent root n k Hr Hk).
  - intros (H1 & H2). split; auto. split; auto. now rewrite (predecessor_parent root n k Hr Hk) in H2.
Qed.
Theorem C112_root_zero : forall n k, 0 < n -> (0 < k)%nat -> (n - 2) / Z.of_nat k + 0 < n.
Proof. intros n k Hn Hk. assert ((n - 2) / Z.of_nat k < n); [apply Z.div_lt_upper_bound; nia|lia]. Qed.
(** Each process has at most [k] successors, all different, and no process but the root is without predecessor. *)
Theorem C112_successors : forall root n k, 0 <= root < n -> (0 < k)%nat ->
  (forall p, 0 <= p < n -> NoDup (successors root p n k) /\ (length (successors root p n k) <= k)%nat) /\
  (forall c, 0 <= c < n -> c <> root -> exists! p, 0 <= p < n /\ In c (successors root p n k)).
Proof.
  intros root n k Hr Hk. split.
  - intros p Hp. split; [now apply NoDup_successors|]. assert (G : forall f l, (forall i : nat, (length (f i : list Z) <= 1)%nat) -> (length (flat_map f l) <= length l)%nat).
    { intros f l Hf. induction l as [|i l IH]; cbn [flat_map length]; auto. rewrite app_length. specialize (Hf i). lia. }
    rewrite <- (seq_length k 0) at 2. apply G. intros i. cbv zeta. match goal with |- context [if ?b then _ else _] => destruct b end; cbn; lia.
  - intros c Hc NR. exists (parentOf root n k c).
    assert (HP : 0 <= parentOf root n k c < n) by (apply parent_range; auto; now rewrite (N_root root n k Hr)).
    split; [split; auto; now apply successors_spec|]. intros p [Hp HI]. now apply successors_spec in HI.
Qed.
(** With other roots, for example the last process (Root_Rank -1), messages are sent to ranks that do not exist. *)
Theorem C112_tree_refuted :
  ~ (forall root n p c, 0 <= root < n -> 0 <= p < n -> 0 <= c < n -> (In c (successors root p n 6) <-> c <> root /\ predecessor root c n 6 = p)).
Proof. intros H. assert (X := proj1 (H 7 8 0 6 ltac:(lia) ltac:(lia) ltac:(lia))). assert (Y : predecessor 7 6 8 6 = 8) by reflexivity. rewrite Y in X. assert (Z := proj2 (X ltac:(vm_compute; auto))). lia. Qed.
Theorem C112_no_result_refuted : forall procs, exists root n, 0 <= root < n /\ root = n - 1 /\ forall v, ~ reduces root n 6 procs 0 v.
Proof.
  intros procs. exists 7, 8. split; [lia|]. split; auto. intros v H. inversion H as [r order w HP HC]; subst.
  assert (E : order = [6]) by (apply Permutation_sym in HP; now apply Permutation_length_1_inv in HP). subst.
  inversion HC as [|? ? ? ? ? ? _ HPr _]; subst. vm_compute in HPr. discriminate.
Qed.

(** Whatever the order in which messages arrive, all processes, dead or not, finish the reduction, and each gets the message of the root. *)
Theorem C112_progress : forall root n k procs, 0 <= root < n -> (0 < k)%nat -> (n - 2) / Z.of_nat k + root < n ->
  (forall r, 0 <= r < n -> exists v, reduces root n k procs r v) /\
  (forall (m : list Z) r, 0 <= r < n -> delivered root n k m r m /\ forall x, delivered root n k m r x -> x = m).
Proof.
  intros root n k procs Hr Hk HB. split; [now apply reduces_all|]. intros m r Hm. split; [now apply delivered_all|]. intros x. now apply delivered_same.
Qed.
(** The root gets the number of dead processes, the largest number of non-blocking collectives, and a rank that has it. *)
Theorem C112_reduce : forall root n k procs v, 0 <= root < n -> (0 < k)%nat -> reduces root n k procs root v ->
  rDead v = Z.of_nat (length (filter (fun r => isDead (procs r)) (ranks n))) /\
  (forall r, 0 <= r < n -> numNBC (procs r) <= rNBC v) /\ 0 <= rRank v < n /\ numNBC (procs (rRank v)) = rNBC v.
Proof.
  intros root n k procs v Hr Hk HR. destruct (root_summary root n k Hr Hk procs v HR) as (S1 & S2 & (S3 & S4) & _).
  split; [exact S1|]. split; [intros r H; apply S2; now apply ranks_in|]. split; auto. now apply ranks_in.
Qed.
(** If all living processes call the same operation, a dead root gets to know it. *)
Theorem C112_operation : forall root n k procs v o, 0 <= root < n -> (0 < k)%nat -> reduces root n k procs root v -> o <> 0 ->
  (forall r, 0 <= r < n -> isDead (procs r) = false -> nextOp (procs r) = o) -> (exists r, 0 <= r < n /\ isDead (procs r) = false) -> rOp v = o.
Proof.
  intros root n k procs v o Hr Hk HR NZ HC (r & Hr1 & Hr2). destruct (root_summary root n k Hr Hk procs v HR) as (_ & _ & _ & S4).
  rewrite (S4 o NZ); [|intros x Hx; apply HC; now apply ranks_in].
  assert (E : someAlive procs (ranks n) = true); [|now rewrite E]. unfold someAlive. apply existsb_exists. exists r. rewrite Hr2. split; auto. now apply ranks_in.
Qed.
(** MPI_Comm_agree: a false flag of a process that is not the root is lost, and the flag is not read from the reduction at all. *)
Theorem C112_agree_refuted :
  ~ (forall root n procs v, 0 <= root < n -> (forall r, 0 <= r < n -> isDead (procs r) = false /\ (nextOp (procs r) = 4 \/ nextOp (procs r) = 5)) ->
       reduces root n 6 procs root v -> (exists r, 0 <= r < n /\ nextOp (procs r) = 4) -> rOp v = 4) /\
  agreedFlag [] = None.
Proof.
  split; [|reflexivity]. intros H. pose (procs := fun r => SP false 0 (if r =? 0 then 5 else 4)).
  assert (R : reduces 0 2 6 procs 0 (RV 0 0 0 5)).
  { change (RV 0 0 0 5) with (finishVec (procs 0) (RV 0 0 0 5)). apply R_proc with [1]; [apply Permutation_refl|].
    apply C_cons with (finishVec (procs 1) (startVec (procs 1) 1)); [|reflexivity|constructor].
    apply R_proc with []; [apply Permutation_refl|constructor]. }
  assert (X := H 0 2 procs (RV 0 0 0 5) ltac:(lia)). cbn [rOp] in X. assert (5 = 4); [|lia]. apply X; auto.
  - intros r Hr. split; auto. unfold procs. cbn [nextOp]. destruct (r =? 0); auto.
  - exists 1. split; [lia|reflexivity].
Qed.

(** The living processes have the same list of dead processes after the check, that of the root, and are all told that a process has failed
    if and only if it is not empty; an acknowledgement only remains if nothing is new. What a process knew before is the beginning of
    the list. *)
Theorem C112_same_knowledge : forall p v dead nbc c, deadNodes c = firstn (length (deadNodes c)) dead ->
  let op := if isDead p then rOp v else nextOp p in op <> 9 -> exists ret c',
  handleMessage c (rootMessage p v dead nbc) = Some (ret, c') /\ deadNodes c' = dead /\ ret = (if dead then 0 else errProcFailed) /\
  (acked c' = true <-> acked c = true /\ length (deadNodes c) = length dead) /\ (op = commFree -> nbc <> [] -> nbcVector c' = nbc) /\
  (op <> commFree -> nbcVector c' = nbcVector c) /\ revoked c' = revoked c.
Proof.
  intros p v dead nbc c HP op H9. unfold rootMessage. cbv zeta. fold op. unfold handleMessage.
  destruct (Z.eqb_spec op 9); [lia|]. eexists. eexists. split; [reflexivity|]. cbn [deadNodes acked nbcVector revoked].
  assert (LP : (length (deadNodes c) <= length dead)%nat) by (rewrite HP, firstn_length; lia).
  assert (F : forall (a b : list Z), firstn (Z.to_nat (Z.of_nat (length a))) (a ++ b) = a) by (intros a b; rewrite Nat2Z.id, firstn_app, Nat.sub_diag, firstn_O, app_nil_r; apply firstn_all).
  assert (SK : forall (a b : list Z), skipn (Z.to_nat (Z.of_nat (length a))) (a ++ b) = b) by (intros a b; rewrite Nat2Z.id, skipn_app, Nat.sub_diag, skipn_O, skipn_all; reflexivity).
  rewrite F, SK. rewrite !Z.gtb_ltb.
  assert (EQ : length (deadNodes c) = length dead -> deadNodes c = dead) by (intros E; rewrite HP, E; apply firstn_all).
  split; [|split; [|split; [|split; [|split]]]].
  - destruct (Z.ltb_spec 0 (Z.of_nat (length dead))); destruct (Z.eqb_spec (Z.of_nat (length dead)) (Z.of_nat (length (deadNodes c)))); cbn [andb negb]; auto; apply EQ; lia.
  - destruct dead; [reflexivity|]. destruct (Z.ltb_spec 0 (Z.of_nat (length (z :: dead)))); auto. cbn [length] in *. lia.
  - destruct (Z.ltb_spec 0 (Z.of_nat (length dead))); destruct (Z.eqb_spec (Z.of_nat (length dead)) (Z.of_nat (length (deadNodes c)))); cbn [andb negb];
      (split; [intros G; try discriminate; split; auto; lia|intros (G & G2); auto; lia]).
  - intros -> NE. cbn [Z.eqb]. change (commFree =? commFree) with true. cbn [length]. rewrite app_length. match goal with |- context [?a <? ?b] => destruct (Z.ltb_spec a b) end; auto.
    destruct nbc; [congruence|]. cbn [length] in *. lia.
  - intros NC. destruct (Z.eqb_spec op commFree); [congruence|]. rewrite app_nil_r. cbn [length]. match goal with |- context [?a <? ?b] => destruct (Z.ltb_spec a b) end; auto. lia.
  - apply orb_false_r.
Qed.
(** The same for a living root. *)
Theorem C112_root_knowledge : forall op dead c, deadNodes c = firstn (length (deadNodes c)) dead ->
  deadNodes (snd (handleRoot c op dead)) = dead /\ (fst (handleRoot c op dead) = errProcFailed <-> dead <> []) /\
  (acked (snd (handleRoot c op dead)) = true <-> acked c = true /\ length (deadNodes c) = length dead).
Proof.
  intros op dead c HP. assert (LP : (length (deadNodes c) <= length dead)%nat) by (rewrite HP, firstn_length; lia).
  assert (EQ : length (deadNodes c) = length dead -> deadNodes c = dead) by (intros E; rewrite HP, E; apply firstn_all).
  unfold handleRoot. destruct (Z.ltb_spec 0 (Z.of_nat (length dead))) as [G|G].
  - assert (NE : dead <> []) by (destruct dead; [cbn in G; lia|discriminate]). destruct (Nat.eqb_spec (length dead) (length (deadNodes c))) as [E|E]; cbn [fst snd deadNodes acked].
    + split; [auto|]. split; [tauto|]. split; [intros H; split; auto|tauto].
    + split; [auto|]. split; [tauto|]. split; [discriminate|]. intros [_ H]. lia.
  - destruct dead; [|cbn [length] in G; lia]. cbn [length] in *. assert (E : deadNodes c = []) by (destruct (deadNodes c); auto; cbn in LP; lia). cbn [fst snd].
    rewrite E. split; auto. split; [|cbn; tauto]. unfold errProcFailed. destruct (op =? 1); split; try discriminate; try tauto; intros; congruence.
Qed.
(** Over any number of checks, with a list of dead processes that grows at its end. *)
Fixpoint checks (c : commState) (ms : list (list Z)) : option commState :=
  match ms with [] => Some c | m :: ms' => match handleMessage c m with Some (_, c') => checks c' ms' | None => None end end.
Fixpoint growing (d : list Z) (ds : list (list Z)) : Prop :=
  match ds with [] => True | d' :: ds' => (exists e, d' = d ++ e) /\ growing d' ds' end.
Theorem C112_all_checks : forall ops ds c, growing (deadNodes c) ds -> length ops = length ds ->
  Forall (fun o => fst (fst o) = false /\ snd (fst o) <> 9) ops ->
  exists c', checks c (map2 (fun o d => rootMessage (SP (fst (fst o)) 0 (snd (fst o))) (RV 0 0 0 0) d (snd o)) ops ds) = Some c' /\ deadNodes c' = last ds (deadNodes c).
Proof.
  induction ops as [|o ops IH]; intros [|d ds] c HG HL HF; try discriminate; cbn [map2 checks]; [exists c; auto|].
  destruct HG as [(e & HE) HG]. inversion HF as [|? ? [F1 F2] HF']; subst.
  destruct (C112_same_knowledge (SP (fst (fst o)) 0 (snd (fst o))) (RV 0 0 0 0) (deadNodes c ++ e) (snd o) c) as (ret & c1 & H1 & H2 & _).
  { now rewrite firstn_app, Nat.sub_diag, firstn_O, app_nil_r, firstn_all. }
  { cbn [isDead nextOp]. now rewrite F1. }
  rewrite H1. destruct (IH ds c1) as (c2 & G1 & G2); auto; [now rewrite H2|]. exists c2. split; auto. rewrite G2, H2.
  clear. generalize (deadNodes c ++ e). intros l. revert l. induction ds as [|y ds IHd]; intros l; auto. cbn [last] in *. destruct ds; auto.
Qed.
(** The list of non-blocking collectives survives the serialization. *)
Theorem C112_nbc_round_trip : forall l, vectorToNBC (nbcToVector l) = Some l.
Proof. induction l as [|[a b c d e] l IH]; auto. unfold nbcToVector in *. cbn [flat_map app vectorToNBC]. now rewrite IH. Qed.

(** Nine processes, of which 1 (which has successors), 2 and 8 have died. *)
Definition exProcs (r : Z) : simProc := SP ((r =? 1) || (r =? 2) || (r =? 8)) (if r =? 5 then 3 else 1) 1.
Example C112_ex_tree : successors 0 0 9 6 = [1; 2; 3; 4; 5; 6] /\ successors 0 1 9 6 = [7; 8] /\ map (fun r => predecessor 0 r 9 6) [1; 6; 7; 8] = [0; 0; 1; 1] /\
  successors 3 3 9 6 = [4; 5; 6; 7; 8; 0] /\ successors 3 4 9 6 = [1; 2] /\ (9 - 2) / Z.of_nat 6 + 3 < 9 /\ successors 7 0 8 6 = [6] /\ predecessor 7 6 8 6 = 8.
Proof. vm_compute. repeat split; reflexivity. Qed.
Example C112_ex : exists v, reduces 0 9 6 exProcs 0 v /\ rDead v = 3 /\ rNBC v = 3 /\ rRank v = 5 /\ rOp v = 1.
Proof.
  destruct (reduces_all 0 9 6 ltac:(lia) ltac:(lia) exProcs ltac:(vm_compute; reflexivity) 0 ltac:(lia)) as (v & Hv). exists v. split; auto.
  destruct (C112_reduce 0 9 6 exProcs v ltac:(lia) ltac:(lia) Hv) as (H1 & H2 & H3 & H4). split; [exact H1|].
  assert (B := H2 5 ltac:(lia)). change (numNBC (exProcs 5)) with 3 in B.
  assert (C : numNBC (exProcs (rRank v)) = if rRank v =? 5 then 3 else 1) by reflexivity. rewrite C in H4. destruct (Z.eqb_spec (rRank v) 5); [|lia].
  split; [lia|]. split; auto. apply (C112_operation 0 9 6 exProcs v 1); auto; try lia. exists 0. split; [lia|reflexivity].
Qed.
Example C112_ex_message : rootMessage (exProcs 0) (RV 3 3 5 1) [1; 2; 8] [] = [1; 3; 1; 2; 8] /\
  handleMessage (CS [1] true [] false) [1; 3; 1; 2; 8] = Some (errProcFailed, CS [1; 2; 8] false [] false) /\
  handleMessage (CS [1] true [] false) (rootMessage (SP false 0 3) (RV 1 0 0 0) [1] (nbcToVector [IS 1 4 1 0 2])) = Some (errProcFailed, CS [1] true [1; 4; 1; 0; 2] false) /\
  growing [] [[1]; [1; 2; 8]].
Proof. repeat split; try (vm_compute; reflexivity); [exists [1]|exists [2; 8]]; reflexivity. Qed.

Print Assumptions C112_tree_partial.
Print Assumptions C112_root_zero.
Print Assumptions C112_successors.
Print Assumptions C112_tree_refuted.
Print Assumptions C112_no_result_refuted.
Print Assumptions C112_progress.
Print Assumptions C112_reduce.
Print Assumptions C112_operation.
Print Assumptions C112_agree_refuted.
Print Assumptions C112_same_knowledge.
Print Assumptions C112_root_knowledge.
Print Assumptions C112_all_checks.
Print Assumptions C112_nbc_round_trip.
Print Assumptions C112_ex_tree.
Print Assumptions C112_ex.
Print Assumptions C112_ex_message.
