(** Properties C28, C29 and C30: chunks, chunk sizes and communicators of the reduction between groups. *)
From Verif Require Import Base Hier1dModel HierMassProofs SparseGridModel LevelSetsProofs ReduceModel ReduceProofs VoteProofs.
From Coq Require Import QArith Qcanon.
Open Scope Z_scope.
Ltac Zify.zify_post_hook ::= idtac.

(** ** C28 *)

(** The calls on a buffer cover its elements in order, each exactly once; none has more than [chunk] elements. *)
Theorem C28_buffer_covered_once : forall size chunk, 0 < chunk < 2 ^ 31 -> 0 <= size < 2 ^ 63 ->
  exists calls, sparseGridCalls (Z.to_nat size) size chunk 0 = Some calls /\
    flat_map (fun c => zrange (fst c) (fst c + snd c)) calls = zrange 0 size /\ Forall (fun c => 0 <= snd c <= chunk) calls.
Proof.
  intros size chunk HC HS. destruct (sparseGridCalls_spec (Z.to_nat size) size chunk 0) as (calls & last & E & C & F & L & _); try lia.
  exists (calls ++ [last]). split; auto. split; [exact C|]. apply Forall_app. split; [|repeat constructor; lia].
  eapply Forall_impl; [|exact F]. cbv beta. intros; lia.
Qed.

(** The chunks of subspaces contain every subspace once, in order; a chunk stays below the limit, unless it is one subspace. *)
Theorem C28_subspaces_covered_once : forall size maxChunk l, (forall s, In s l -> 0 <= size s < 2 ^ 31) -> 0 < maxChunk < 2 ^ 31 ->
  concat (getChunkedSubspaces size maxChunk l) = l /\
  Forall (fun c => c <> [] /\ (zsum (map size c) < maxChunk \/ exists s, c = [s])) (getChunkedSubspaces size maxChunk l).
Proof.
  intros size maxChunk l HS HM. destruct (chunked_spec size maxChunk (length l) l HS HM (Nat.le_refl _)) as [A B]. split; auto.
  eapply Forall_impl; [|exact B]. cbv beta. intros c [N D]. split; auto. destruct D as [D|D]; [left; exact D|right].
  destruct c as [|s [|]]; try discriminate. now exists s.
Qed.

(** With larger subspaces the sum of the sizes (uint32_t) can wrap around: a chunk of two subspaces of together 2^32 + 10
    elements for a limit of 100. *)
Theorem C28_wrap_refuted : let size := fun s => if s =? 0 then 2 ^ 32 - 10 else 20 in
  (forall s, 0 <= size s < 2 ^ 32) /\ getChunkedSubspaces size 100 [0; 1] = [[0; 1]] /\ zsum (map size [0; 1]) = 2 ^ 32 + 10.
Proof.
  intros size. split; [|split; vm_compute; reflexivity]. intros s. unfold size. destruct (s =? 0); lia.
Qed.

Example C28_ex : sparseGridCalls 10 10 4 0 = Some [(0, 4); (4, 4); (8, 2)] /\ sparseGridCalls 8 8 4 0 = Some [(0, 4); (4, 4); (8, 0)] /\
  getChunkedSubspaces (fun s => nth (Z.to_nat s) [3; 4; 20; 0; 5] 0) 8 [0; 1; 2; 3; 4] = [[0; 1]; [2]; [3; 4]].
Proof. vm_compute. auto. Qed.

(** ** C29 *)

(** As long as the number of elements fits into an int, it is what was asked for. *)
Theorem C29_chunk_size_partial : forall mib esz threads, 0 < mib < 2 ^ 31 -> 0 < esz <= 2 ^ 20 -> 0 < threads ->
  2 ^ 20 * mib / esz * threads < 2 ^ 31 ->
  0 < globalReduceChunkSize mib esz threads < 2 ^ 31 /\
  globalReduceChunkSize mib esz threads * esz <= 2 ^ 20 * mib * threads < (globalReduceChunkSize mib esz threads + threads) * esz.
Proof.
  intros mib esz threads HM HE HT HB. unfold globalReduceChunkSize.
  destruct (Z.gtb_spec mib (2 ^ 31 - 1)); [lia|]. destruct (Z.eqb_spec mib 0); [lia|]. cbn [orb].
  set (q := 2 ^ 20 * mib / esz) in *. assert (Q1 : 1 <= q) by (unfold q; apply Z.div_le_lower_bound; lia).
  assert (U1 : u64 (2 ^ 20 * mib) = 2 ^ 20 * mib) by (apply u64_id; lia). rewrite U1. fold q.
  assert (Hq : 0 < q * threads) by nia.
  assert (U2 : u64 (q * threads) = q * threads) by (apply u64_id; lia). rewrite U2. rewrite i32_id by lia.
  split; [lia|]. pose proof (Z.div_mod (2 ^ 20 * mib) esz ltac:(lia)) as D. pose proof (Z.mod_pos_bound (2 ^ 20 * mib) esz ltac:(lia)) as M. fold q in D. nia.
Qed.
(** No limit (0, or more than an int holds) gives the largest int. *)
Theorem C29_no_limit : forall mib esz threads, mib = 0 \/ 2 ^ 31 <= mib -> globalReduceChunkSize mib esz threads = 2 ^ 31 - 1.
Proof.
  intros mib esz threads H. unfold globalReduceChunkSize. destruct (Z.gtb_spec mib (2 ^ 31 - 1)); auto. destruct (Z.eqb_spec mib 0); auto. lia.
Qed.
(** Otherwise it overflows: a limit that is a multiple of 32 GiB gives no element at all for double precision, and the
    reduction divides by zero; 16 GiB give a negative number, and one single call for the whole buffer. *)
Theorem C29_overflow_refuted :
  (forall k, 1 <= k < 2 ^ 16 -> globalReduceChunkSize (32768 * k) 8 1 = 0) /\
  (forall fuel size sent, sparseGridCalls fuel size 0 sent = None) /\
  globalReduceChunkSize 16384 8 1 = - 2 ^ 31 /\ sparseGridCalls 10 (2 ^ 31 - 1) (- 2 ^ 31) 0 = Some [(0, 2 ^ 31 - 1)].
Proof.
  split; [|split; [|split; vm_compute; reflexivity]].
  - intros k Hk. unfold globalReduceChunkSize. destruct (Z.gtb_spec (32768 * k) (2 ^ 31 - 1)); [lia|]. destruct (Z.eqb_spec (32768 * k) 0); [lia|]. cbn [orb].
    replace (2 ^ 20 * (32768 * k)) with (k * 2 ^ 32 * 8) by lia. rewrite (u64_id (k * 2 ^ 32 * 8)) by lia. rewrite Z.div_mul by lia. rewrite Z.mul_1_r.
    rewrite u64_id by lia. unfold i32. replace (k * 2 ^ 32 + 2 ^ 31) with (2 ^ 31 + k * 2 ^ 32) by lia. rewrite Z.mod_add by lia. reflexivity.
  - intros fuel size sent. destruct fuel; reflexivity.
Qed.

Example C29_ex : globalReduceChunkSize 16 8 1 = 2097152 /\ globalReduceChunkSize 64 16 4 = 16777216.
Proof. vm_compute. auto. Qed.

(** ** C30 *)

(** Group [r] has points of subspace [i]. *)
Definition present (R : nat) (sizes : nat -> list Z) (i : Z) (r : nat) : Prop := (r < R)%nat /\ 0 < nth (Z.to_nat i) (sizes r) 0.

Lemma present_holders : forall R sizes i r, present R sizes i r <-> In r (holders R sizes i).
Proof. intros. rewrite holders_In. unfold present, has. destruct (Z.gtb_spec (nth (Z.to_nat i) (sizes r) 0) 0); intuition (try lia; try discriminate). Qed.

(** A subspace takes part in exactly one reduction of group [r] if [r] and another group have points of it, and in none
    otherwise; the members are exactly the groups with points, and all of them see the same communicator with the same
    subspaces. No communicator occurs twice. *)
Theorem C30_subspace_communicators : forall n R sizes, (R <= 256)%nat -> forall r, let comms := subspaceCommunicators n R sizes in
  NoDup (map fst (comms r)) /\
  (forall i, 0 <= i < Z.of_nat n ->
    ((exists M is, In (M, is) (comms r) /\ In i is) <-> present R sizes i r /\ exists r', r' <> r /\ present R sizes i r')) /\
  (forall M is i, In (M, is) (comms r) -> In i is -> 0 <= i < Z.of_nat n /\ (forall r', In r' M <-> present R sizes i r') /\
    (forall M' is', In (M', is') (comms r) -> In i is' -> M' = M /\ is' = is)) /\
  (forall M is r', In (M, is) (comms r) -> In r' M -> In (M, is) (comms r')).
Proof.
  intros n R sizes HR r comms. split; [now apply comms_NoDup|]. split; [|split].
  - intros i Hi. split.
    + intros (M & is & H & Hin). destruct (comms_entry n R sizes r M is HR H) as (Hr & _ & _ & E). apply E in Hin. destruct Hin as (_ & (a & b & N & A & B) & EM).
      rewrite <- EM in Hr. split; [now apply present_holders|]. destruct (Nat.eq_dec a r) as [->|Na]; [exists b|exists a]; (split; [congruence|now apply present_holders]).
    + intros (P & r' & N & P'). apply present_holders in P, P'. destruct (comms_exists n R sizes r i HR Hi) as (is & H & Hin); auto; [exists r, r'; auto|]. eauto.
  - intros M is i H Hin. destruct (comms_entry n R sizes r M is HR H) as (Hr & _ & SS & E). pose proof Hin as Hin'. apply E in Hin'. destruct Hin' as (Hn & Sh & EM).
    split; auto. split; [intros r'; rewrite <- EM; symmetry; apply present_holders|]. intros M' is' H' Hin2.
    destruct (comms_entry n R sizes r M' is' HR H') as (_ & _ & SS' & E'). apply E' in Hin2. destruct Hin2 as (_ & _ & EM'). assert (M' = M) by congruence. subst M'. split; auto.
    apply comms_In in H; auto. apply comms_In in H'; auto. destruct H as (_ & w & Hw & _), H' as (_ & w' & Hw' & _).
    destruct (byVote_ok n R sizes) as (HS & _ & _). apply (byVote_entry _ _ _ _ _ i Hw) in Hin. destruct Hin as (_ & W & _).
    assert (Hin' : In i is') by (apply E'; auto). apply (byVote_entry _ _ _ _ _ i Hw') in Hin'. destruct Hin' as (_ & W' & _). rewrite <- W in Hw. rewrite <- W' in Hw'.
    eapply keys_unique; eauto.
  - intros M is r' H Hr'. apply comms_In in H; auto. destruct H as (_ & w & Hw & EM). apply comms_In; auto. split; auto. exists w. auto.
Qed.

(** The outgroup variant: the subspaces exchanged are exactly those with points in two or more groups, a group takes part if
    it has one of them, in the communicator of all groups, and then has room for all of them: as many points as the group
    with the most. Other subspaces keep their size. *)
Definition sharedByTwo (R : nat) (sizes : nat -> list Z) (i : Z) : Prop := exists r r', r <> r' /\ present R sizes i r /\ present R sizes i r'.
Lemma shared_two : forall R sizes i, sharedByTwo R sizes i <-> shared R sizes i.
Proof. intros R sizes i. split; intros (r & r' & N & A & B); exists r, r'; rewrite !present_holders in *; auto. Qed.

Theorem C30_outgroup : forall n R sizes, (R <= 256)%nat -> forall r, (r < R)%nat ->
  (outgroupCommunicator n R sizes r = [] /\ (forall i, 0 <= i < Z.of_nat n -> ~ (sharedByTwo R sizes i /\ present R sizes i r)) \/
   exists is, outgroupCommunicator n R sizes r = [(seq 0 R, is)] /\ (exists i, In i is /\ present R sizes i r) /\
     StronglySorted Z.lt is /\ (forall i, In i is <-> 0 <= i < Z.of_nat n /\ sharedByTwo R sizes i)) /\
  (forall i, 0 <= i < Z.of_nat n -> let s := nth (Z.to_nat i) (outgroupSizes n R sizes r) 0 in
     (sharedByTwo R sizes i -> (forall r', (r' < R)%nat -> nth (Z.to_nat i) (sizes r') 0 <= s) /\ exists r', (r' < R)%nat /\ s = nth (Z.to_nat i) (sizes r') 0) /\
     (~ sharedByTwo R sizes i -> s = nth (Z.to_nat i) (sizes r) 0)).
Proof.
  intros n R sizes HR r Hr. split.
  - unfold outgroupCommunicator. destruct (memN r (ranksOf (manyGroups n R sizes))) eqn:E.
    + right. exists (subspacesForMany n R sizes). split; auto. apply memN_In in E. apply (manyGroups_In _ _ _ _ HR) in E. destruct E as (i & Hi & S & Hh). split; [|split].
      * exists i. split; [apply forMany_In; auto|now apply present_holders].
      * assert (ZS : StronglySorted Z.lt (zrange 0 (Z.of_nat n))) by apply zrange_sorted. unfold subspacesForMany. revert ZS. generalize (zrange 0 (Z.of_nat n)). intros l.
        induction l as [|x l IH]; intros S'; cbn [filter]; [constructor|]. apply StronglySorted_inv in S'. destruct S' as [S' F]. destruct (severalBits _); auto. constructor; auto.
        apply Forall_forall. intros y Hy. apply filter_In in Hy. rewrite Forall_forall in F. apply F. tauto.
      * intros j. rewrite forMany_In, shared_two. reflexivity.
    + left. split; auto. intros i Hi [S P]. assert (X : memN r (ranksOf (manyGroups n R sizes)) = true); [|congruence]. apply memN_In, manyGroups_In; auto.
      exists i. split; auto. split; [now apply shared_two|now apply present_holders].
  - intros i Hi s. assert (ES : s = if memZ i (subspacesForMany n R sizes) then maxSize R sizes i else nth (Z.to_nat i) (sizes r) 0).
    { unfold s, outgroupSizes. rewrite (nth_indep _ 0 ((fun i => if memZ i (subspacesForMany n R sizes) then maxSize R sizes i else nth (Z.to_nat i) (sizes r) 0) 0)) by (rewrite map_length, zrange_length; lia).
      rewrite (map_nth (fun i => if memZ i (subspacesForMany n R sizes) then maxSize R sizes i else nth (Z.to_nat i) (sizes r) 0)).
      assert (X : nth (Z.to_nat i) (zrange 0 (Z.of_nat n)) 0 = i) by (unfold zrange; rewrite zseq_nth by lia; lia). rewrite X. reflexivity. }
    assert (M : memZ i (subspacesForMany n R sizes) = true <-> sharedByTwo R sizes i).
    { unfold memZ. rewrite existsb_exists, shared_two. split.
      - intros (x & Hx & E). apply Z.eqb_eq in E. subst x. now apply forMany_In in Hx.
      - intros S. exists i. split; [now apply forMany_In|apply Z.eqb_refl]. }
    split; intros S.
    + rewrite (proj2 M S) in ES. unfold maxSize in ES. destruct (maxSize_fold sizes i (seq 0 R) 0) as (_ & B & C). rewrite <- ES in B, C. split.
      * intros r' Hr'. apply B. apply in_seq. lia.
      * destruct C as [C|(x & Hx & C)]; [|exists x; split; auto; apply in_seq in Hx; lia]. destruct S as (a & _ & _ & [Ha Pa] & _). specialize (B a ltac:(apply in_seq; lia)). lia.
    + destruct (memZ i (subspacesForMany n R sizes)) eqn:E; auto. destruct (S (proj1 M eq_refl)).
Qed.

(** A group that shares nothing does not take part, although it is a member: the reduction of the others does not end. *)
Definition exLonely (r : nat) : list Z := match r with O => [1; 1; 0] | S O => [1; 1; 0] | _ => [0; 0; 1] end.
Theorem C30_outgroup_refuted :
  outgroupCommunicator 3 3 exLonely 0 = [([0; 1; 2]%nat, [0; 1])] /\ outgroupCommunicator 3 3 exLonely 2 = [] /\
  forall (maxChunk : Z) ds, (forall r, dSizes (ds r) = outgroupSizes 3 3 exLonely r) -> 0 < maxChunk < 2 ^ 31 ->
    subspaceReduce maxChunk [[0; 1; 2]%nat] (outgroupCommunicator 3 3 exLonely) ds = None.
Proof.
  split; [vm_compute; reflexivity|]. split; [vm_compute; reflexivity|]. intros maxChunk ds HD HM. unfold subspaceReduce.
  assert (E0 : outgroupCommunicator 3 3 exLonely 0 = [([0; 1; 2]%nat, [0; 1])]) by (vm_compute; reflexivity).
  assert (E2 : outgroupCommunicator 3 3 exLonely 2 = []) by (vm_compute; reflexivity).
  assert (L : length (callsIn maxChunk (outgroupCommunicator 3 3 exLonely 0) (ds 0%nat) [0; 1; 2]%nat) <> 0%nat).
  { rewrite E0. unfold callsIn. cbn [flat_map fst snd]. change (eqComm [0; 1; 2]%nat [0; 1; 2]%nat) with true. cbn iota. rewrite app_nil_r, map_length.
    unfold getChunkedSubspaces. cbn [length chunkedSubspaces]. destruct (takeChunk _ _ _ _). discriminate. }
  cbn [roundsOfComms]. unfold roundsOf. cbn [forallb]. rewrite Nat.eqb_refl. cbn [andb].
  replace (length (callsIn maxChunk (outgroupCommunicator 3 3 exLonely 2) (ds 2%nat) [0; 1; 2]%nat)) with 0%nat by (rewrite E2; reflexivity).
  destruct (length (callsIn maxChunk (outgroupCommunicator 3 3 exLonely 0) (ds 0%nat) [0; 1; 2]%nat)); [contradiction|]. cbn [Nat.eqb]. rewrite andb_false_r. reflexivity.
Qed.

(** The subspaces a group reduces only within itself: its own ones that are not exchanged. *)
Theorem C30_ingroup : forall n R sizes, (R <= 256)%nat -> forall r, (r < R)%nat -> length (sizes r) = n ->
  forall i, 0 <= i < Z.of_nat n ->
  (In i (ingroupSubspaces (outgroupSizes n R sizes r) (outgroupCommunicator n R sizes r)) /\ present R sizes i r <->
   present R sizes i r /\ ~ sharedByTwo R sizes i).
Proof.
  intros n R sizes HR r Hr Hn i Hi. destruct (C30_outgroup n R sizes HR r Hr) as [A B]. specialize (B i Hi). cbv zeta in B. destruct B as [B1 B2].
  assert (LO : length (outgroupSizes n R sizes r) = n) by (unfold outgroupSizes; rewrite map_length, zrange_length; lia).
  unfold ingroupSubspaces. rewrite filter_In, zrange_In, LO, andb_true_iff, Z.gtb_lt. split.
  - intros ((_ & _ & N) & P). split; auto. intros S. destruct A as [[_ A]|(is & E & _ & _ & A)]; [apply (A i Hi); auto|]. rewrite E in N. cbn [snd] in N.
    apply negb_true_iff in N. assert (X : memZ i is = true); [|congruence]. apply existsb_exists. exists i. split; [now apply A|apply Z.eqb_refl].
  - intros [P S]. split; auto. split; [lia|]. destruct P as [_ P]. split; [rewrite B2 by auto; lia|]. destruct A as [[-> _]|(is & E & _ & _ & A)]; auto. rewrite E. cbn [snd].
    apply negb_true_iff. destruct (memZ i is) eqn:M; auto. apply existsb_exists in M. destruct M as (x & Hx & Ex). apply Z.eqb_eq in Ex. subst x. apply A in Hx. tauto.
Qed.

(** Three groups; subspace 0 in all, 1 in groups 0 and 2, 2 in group 1 only, 3 in groups 1 and 2, 4 nowhere. *)
Definition exSizes (r : nat) : list Z := match r with O => [4; 2; 0; 0; 0] | S O => [4; 0; 3; 6; 0] | _ => [4; 2; 0; 6; 0] end.
Example C30_ex : subspaceCommunicators 5 3 exSizes 2 = [([0; 2]%nat, [1]); ([1; 2]%nat, [3]); ([0; 1; 2]%nat, [0])] /\
  outgroupCommunicator 5 3 exSizes 1 = [([0; 1; 2]%nat, [0; 1; 3])] /\ outgroupSizes 5 3 exSizes 1 = [4; 2; 3; 6; 0] /\
  ingroupSubspaces (outgroupSizes 5 3 exSizes 1) (outgroupCommunicator 5 3 exSizes 1) = [2].
Proof. vm_compute. auto. Qed.

Print Assumptions C28_buffer_covered_once.
Print Assumptions C28_subspaces_covered_once.
Print Assumptions C28_wrap_refuted.
Print Assumptions C29_chunk_size_partial.
Print Assumptions C29_no_limit.
Print Assumptions C29_overflow_refuted.
Print Assumptions C30_subspace_communicators.
Print Assumptions C30_outgroup.
Print Assumptions C30_outgroup_refuted.
Print Assumptions C30_ingroup.
