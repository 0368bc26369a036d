(** Proofs about the votes for subspaces and the communicators built from them. *)
From Verif Require Import Base LevelSetsModel LevelSetsProofs Hier1dModel SparseGridModel SparseGridProofs ReduceModel ReduceProofs.
From Coq Require Import QArith Qcanon.
Open Scope Z_scope.
Ltac Zify.zify_post_hook ::= idtac.

(** The groups that have data in subspace [i]. *)
Definition has (sizes : nat -> list Z) (i : Z) (r : nat) : bool := nth (Z.to_nat i) (sizes r) 0 >? 0.
Definition holders (R : nat) (sizes : nat -> list Z) (i : Z) : list nat := filter (has sizes i) (seq 0 R).

Lemma holders_In : forall R sizes i r, In r (holders R sizes i) <-> (r < R)%nat /\ has sizes i r = true.
Proof. intros. unfold holders. rewrite filter_In, in_seq. intuition lia. Qed.

Lemma testbit_bit : forall (r : nat) k, 0 <= k -> Z.testbit (Z.shiftl 1 (Z.of_nat r)) k = (k =? Z.of_nat r).
Proof. intros r k Hk. rewrite Z.shiftl_1_l. rewrite Z.pow2_bits_eqb by lia. apply Z.eqb_sym. Qed.

Lemma voteFold_testbit : forall sizes i l v k, 0 <= k ->
  Z.testbit (fold_left (fun v r => Z.lor v (if nth (Z.to_nat i) (sizes r) 0 >? 0 then Z.shiftl 1 (Z.of_nat r) else 0)) l v) k =
  (Z.testbit v k || existsb (fun r => has sizes i r && (k =? Z.of_nat r)) l)%bool.
Proof.
  intros sizes i. induction l as [|r l IH]; intros v k Hk; cbn [fold_left existsb].
  - now rewrite orb_false_r.
  - rewrite IH by auto. rewrite Z.lor_spec, <- orb_assoc. f_equal. f_equal. unfold has. destruct (_ >? 0); cbn [andb].
    + now apply testbit_bit.
    + now rewrite Z.bits_0.
Qed.

Lemma vote_testbit : forall R sizes i (r : nat), Z.testbit (subspaceVote R sizes i) (Z.of_nat r) = true <-> In r (holders R sizes i).
Proof.
  intros R sizes i r. unfold subspaceVote. rewrite voteFold_testbit by lia. rewrite Z.bits_0. cbn [orb]. rewrite existsb_exists, holders_In. split.
  - intros (x & Hx & E). apply andb_true_iff in E. destruct E as [E1 E2]. apply Z.eqb_eq in E2. assert (x = r) by lia. subst.
    apply in_seq in Hx. split; auto. lia.
  - intros [H1 H2]. exists r. rewrite in_seq, H2, Z.eqb_refl. split; auto. lia.
Qed.

Lemma voteFold_nonneg : forall sizes i l v, 0 <= v ->
  0 <= fold_left (fun v r => Z.lor v (if nth (Z.to_nat i) (sizes r) 0 >? 0 then Z.shiftl 1 (Z.of_nat r) else 0)) l v.
Proof.
  intros sizes i. induction l as [|r l IH]; intros v Hv; cbn [fold_left]; auto. apply IH. apply Z.lor_nonneg. split; auto.
  destruct (_ >? 0); [|lia]. rewrite Z.shiftl_nonneg. lia.
Qed.
Lemma vote_nonneg : forall R sizes i, 0 <= subspaceVote R sizes i.
Proof. intros. apply voteFold_nonneg. lia. Qed.

Lemma nonzero_bit : forall v, 0 <= v -> v <> 0 -> exists k, 0 <= k /\ Z.testbit v k = true.
Proof. intros v H N. exists (Z.log2 v). split; [apply Z.log2_nonneg|]. apply Z.bit_log2. lia. Qed.

Lemma severalBits_spec : forall v, 0 <= v ->
  (severalBits v = true <-> exists j k, 0 <= j < k /\ Z.testbit v j = true /\ Z.testbit v k = true).
Proof.
  intros v Hv. unfold severalBits. rewrite andb_true_iff, !negb_true_iff, !Z.eqb_neq. split.
  - intros [N0 N1]. assert (H1 : 0 <= v - 1) by lia.
    destruct (nonzero_bit (Z.land v (v - 1))) as (k & Hk & B); [apply Z.land_nonneg; now left|auto|].
    rewrite Z.land_spec, andb_true_iff in B. destruct B as [B1 B2].
    assert (X : exists j, 0 <= j /\ j <> k /\ Z.testbit v j = true).
    { destruct (Z.eq_dec (Z.clearbit v k) 0) as [E|E].
      - exfalso. assert (V : v = 2 ^ k).
        { apply Z.bits_inj'. intros j Hj. rewrite Z.pow2_bits_eqb by lia. destruct (Z.eqb_spec k j) as [<-|NE]; auto.
          rewrite <- (Z.clearbit_neq v k j) by auto. rewrite E. apply Z.bits_0. }
        rewrite V in B2. rewrite Z.sub_1_r, <- Z.ones_equiv in B2. rewrite Z.ones_spec_high in B2 by lia. discriminate.
      - destruct (nonzero_bit (Z.clearbit v k)) as (j & Hj & B); auto.
        + unfold Z.clearbit. apply Z.ldiff_nonneg. auto.
        + exists j. rewrite Z.clearbit_eqb in B. apply andb_true_iff in B. destruct B as [B3 B4]. split; auto. split; auto.
          intros ->. rewrite Z.eqb_refl in B4. discriminate. }
    destruct X as (j & Hj & NE & B). destruct (Z_lt_le_dec j k); [exists j, k|exists k, j]; repeat split; auto; lia.
  - intros (j & k & Hjk & B1 & B2). split; [intros ->; rewrite Z.bits_0 in B1; discriminate|]. intros E.
    assert (Z.testbit (Z.land v (v - 1)) k = true); [|rewrite E, Z.bits_0 in H; discriminate].
    rewrite Z.land_spec, B2. cbn [andb]. rewrite <- B2. rewrite !Z.testbit_odd, !Z.shiftr_div_pow2 by lia. f_equal.
    assert (P : 0 < 2 ^ k) by (apply Z.pow_pos_nonneg; lia).
    assert (M : v mod 2 ^ k <> 0).
    { intros M. rewrite <- (Z.mod_pow2_bits_low v k j) in B1 by lia. rewrite M, Z.bits_0 in B1. discriminate. }
    pose proof (Z.div_mod v (2 ^ k) ltac:(lia)) as D. pose proof (Z.mod_pos_bound v (2 ^ k) P) as MB.
    symmetry. apply (Z.div_unique_pos (v - 1) (2 ^ k) (v / 2 ^ k) (v mod 2 ^ k - 1)); lia.
Qed.

(** More than one bit is set iff at least two groups have data. *)
Definition shared (R : nat) (sizes : nat -> list Z) (i : Z) : Prop :=
  exists r r', r <> r' /\ In r (holders R sizes i) /\ In r' (holders R sizes i).

Lemma several_shared : forall R sizes i, severalBits (subspaceVote R sizes i) = true <-> shared R sizes i.
Proof.
  intros R sizes i. rewrite severalBits_spec by apply vote_nonneg. split.
  - intros (j & k & Hjk & B1 & B2). exists (Z.to_nat j), (Z.to_nat k). rewrite <- !vote_testbit, !Z2Nat.id by lia. split; auto. lia.
  - intros (r & r' & N & A & B). apply vote_testbit in A, B. destruct (Nat.lt_trichotomy r r') as [L|[L|L]]; [|contradiction|].
    + exists (Z.of_nat r), (Z.of_nat r'). split; auto. lia.
    + exists (Z.of_nat r'), (Z.of_nat r). split; auto. lia.
Qed.

Lemma land_bit : forall v (r : nat), negb (Z.land v (Z.shiftl 1 (Z.of_nat r)) =? 0) = Z.testbit v (Z.of_nat r).
Proof.
  intros v r. destruct (Z.testbit v (Z.of_nat r)) eqn:E.
  - apply negb_true_iff, Z.eqb_neq. intros X. assert (Z.testbit (Z.land v (Z.shiftl 1 (Z.of_nat r))) (Z.of_nat r) = true).
    { rewrite Z.land_spec, E, testbit_bit, Z.eqb_refl by lia. reflexivity. }
    rewrite X, Z.bits_0 in H. discriminate.
  - apply negb_false_iff, Z.eqb_eq. apply Z.bits_inj'. intros k Hk. rewrite Z.land_spec, testbit_bit, Z.bits_0 by lia.
    destruct (Z.eqb_spec k (Z.of_nat r)) as [->|N]; [now rewrite E|apply andb_false_r].
Qed.

Lemma ranksOf_In : forall v r, In r (ranksOf v) <-> (r < 256)%nat /\ Z.testbit v (Z.of_nat r) = true.
Proof. intros v r. unfold ranksOf. rewrite filter_In, in_seq, land_bit. intuition lia. Qed.

Lemma ranksOf_vote : forall R sizes i, (R <= 256)%nat -> ranksOf (subspaceVote R sizes i) = holders R sizes i.
Proof.
  intros R sizes i HR. unfold ranksOf, holders. replace 256%nat with (R + (256 - R))%nat by lia. rewrite seq_app, filter_app.
  assert (E : forall r, negb (Z.land (subspaceVote R sizes i) (Z.shiftl 1 (Z.of_nat r)) =? 0) = has sizes i r && (r <? R)%nat).
  { intros r. rewrite land_bit. apply eq_true_iff_eq. rewrite vote_testbit, holders_In, andb_true_iff, Nat.ltb_lt. tauto. }
  rewrite (filter_ext_in _ (has sizes i) (seq 0 R)).
  - rewrite (filter_ext_in _ (fun _ => false) (seq (0 + R) (256 - R))).
    + rewrite <- (app_nil_r (filter (has sizes i) (seq 0 R))) at 2. f_equal. generalize (seq (0 + R) (256 - R)).
      intros l. induction l as [|x l IHl]; auto.
    + intros r Hr. apply in_seq in Hr. rewrite E. destruct (Nat.ltb_spec r R); [lia|]. apply andb_false_r.
  - intros r Hr. apply in_seq in Hr. rewrite E. destruct (Nat.ltb_spec r R); [|lia]. apply andb_true_r.
Qed.

(** ** The map from votes to subspaces *)

Definition voteMapOk (vote : Z -> Z) (sev : Z -> bool) (l : list Z) (m : list (Z * list Z)) : Prop :=
  StronglySorted Z.lt (map fst m) /\
  (forall w is, In (w, is) m -> is = filter (fun i => (vote i =? w) && sev i) l /\ is <> []) /\
  (forall i, In i l -> sev i = true -> exists is, In (vote i, is) m).

Lemma insertVote_spec : forall v i m, StronglySorted Z.lt (map fst m) ->
  StronglySorted Z.lt (map fst (insertVote v i m)) /\
  (forall k, In k (map fst (insertVote v i m)) <-> k = v \/ In k (map fst m)) /\
  (forall w is, In (w, is) (insertVote v i m) ->
     (w <> v /\ In (w, is) m) \/ (w = v /\ ((exists is', In (v, is') m /\ is = is' ++ [i]) \/ (~ In v (map fst m) /\ is = [i])))) /\
  (forall w is, In (w, is) m -> w <> v -> In (w, is) (insertVote v i m)).
Proof.
  intros v i. induction m as [|[w is] m IH]; intros HS.
  - cbn [insertVote map fst]. split; [repeat constructor|]. split; [intros k; cbn; intuition|]. split; [|intros w is []].
    intros w is [E|[]]. injection E as <- <-. right. split; auto.
  - cbn [map fst] in HS. apply StronglySorted_inv in HS. destruct HS as [HS HF]. rewrite Forall_forall in HF. cbn [insertVote].
    destruct (Z.ltb_spec v w) as [L|L].
    + cbn [map fst]. split; [|split; [|split]].
      * constructor; [constructor; auto; now apply Forall_forall|]. constructor; auto. apply Forall_forall. intros x Hx. specialize (HF x Hx). lia.
      * intros k. cbn [In]. intuition.
      * intros w' is' [E|H].
        -- injection E as <- <-. right. split; auto. right. split; auto. intros [E|E]; [cbn in E; lia|]. specialize (HF v E). lia.
        -- left. split; auto. intros ->. destruct H as [E|H]; [injection E as <- <-; lia|].
           specialize (HF v (in_map fst _ _ H)). lia.
      * intros w' is' H N. now right.
    + destruct (Z.eqb_spec v w) as [->|N].
      * cbn [map fst]. split; [constructor; auto; now apply Forall_forall|]. split; [intros k; cbn [In]; intuition|]. split.
        -- intros w' is' [E|H].
           ++ injection E as <- <-. right. split; auto. left. exists is. split; auto. now left.
           ++ left. split; [|now right]. intros ->. specialize (HF w (in_map fst _ _ H)). lia.
        -- intros w' is' [E|H] N; [injection E as <- <-; contradiction|now right].
      * destruct (IH HS) as (A & B & C & D). cbn [map fst]. split; [|split; [|split]].
        -- constructor; auto. apply Forall_forall. intros x Hx. apply B in Hx. destruct Hx as [->|Hx]; [lia|auto].
        -- intros k. cbn [In]. rewrite B. intuition.
        -- intros w' is' [E|H].
           ++ injection E as <- <-. left. split; [lia|now left].
           ++ destruct (C w' is' H) as [[N' H']|[-> H']]; [left; split; auto; now right|]. right. split; auto.
              destruct H' as [(is0 & H' & ->)|[H' ->]]; [left; exists is0; split; auto; now right|]. right. split; auto.
              intros [E|E]; [cbn in E; lia|contradiction].
        -- intros w' is' [E|H] N'; [injection E as <- <-; now left|right; auto].
Qed.

Lemma keys_unique : forall (m : list (Z * list Z)) w a b, StronglySorted Z.lt (map fst m) -> In (w, a) m -> In (w, b) m -> a = b.
Proof.
  induction m as [|[k c] m IH]; intros w a b HS Ha Hb; [destruct Ha|]. cbn [map fst] in HS. apply StronglySorted_inv in HS.
  destruct HS as [HS HF]. rewrite Forall_forall in HF.
  destruct Ha as [Ea|Ha], Hb as [Eb|Hb].
  - congruence.
  - injection Ea as -> ->. specialize (HF w (in_map fst _ _ Hb)). lia.
  - injection Eb as -> ->. specialize (HF w (in_map fst _ _ Ha)). lia.
  - now apply (IH w).
Qed.

Lemma voteMap_step : forall vote sev l m i, voteMapOk vote sev l m -> voteMapOk vote sev (l ++ [i]) (if sev i then insertVote (vote i) i m else m).
Proof.
  intros vote sev l m i (HS & HE & HX). destruct (sev i) eqn:SI.
  - destruct (insertVote_spec (vote i) i m HS) as (A & B & C & D). split; auto. split.
    + intros w is H. rewrite filter_app. cbn [filter]. rewrite SI, andb_true_r. destruct (C w is H) as [[N H']|[-> H']].
      * destruct (Z.eqb_spec (vote i) w); [congruence|]. rewrite app_nil_r. now apply HE.
      * rewrite Z.eqb_refl. destruct H' as [(is' & H' & ->)|[H' ->]].
        -- destruct (HE _ _ H') as [<- _]. split; auto. destruct is'; discriminate.
        -- split; [|discriminate]. rewrite <- (app_nil_l [i]) at 1. f_equal. symmetry.
           assert (F : forall x, In x l -> (vote x =? vote i) && sev x = false).
           { intros x Hx. destruct (Z.eqb_spec (vote x) (vote i)) as [E|]; auto. destruct (sev x) eqn:SX; auto. exfalso. apply H'.
             destruct (HX x Hx SX) as (is & Hin). rewrite E in Hin. exact (in_map fst _ _ Hin). }
           clear - F. induction l as [|x l IH]; auto. cbn [filter]. rewrite F by now left. apply IH. intros y Hy. apply F. now right.
    + intros x Hx SX. apply in_app_iff in Hx. assert (K : In (vote x) (map fst (insertVote (vote i) i m))).
      { apply B. destruct Hx as [Hx|[<-|[]]]; [|now left]. destruct (HX x Hx SX) as (is & Hin). right. exact (in_map fst _ _ Hin). }
      apply in_map_iff in K. destruct K as ([w is] & E & K). cbn in E. subst. now exists is.
  - split; auto. split.
    + intros w is H. rewrite filter_app. cbn [filter]. rewrite SI, andb_false_r, app_nil_r. now apply HE.
    + intros x Hx SX. apply in_app_iff in Hx. destruct Hx as [Hx|[<-|[]]]; auto. congruence.
Qed.

Lemma voteMap_fold : forall vote sev l l0 m, voteMapOk vote sev l0 m ->
  voteMapOk vote sev (l0 ++ l) (fold_left (fun m i => if sev i then insertVote (vote i) i m else m) l m).
Proof.
  intros vote sev. induction l as [|i l IH]; intros l0 m H; cbn [fold_left]; [now rewrite app_nil_r|].
  replace (l0 ++ i :: l) with ((l0 ++ [i]) ++ l) by (rewrite <- app_assoc; reflexivity). apply IH. now apply voteMap_step.
Qed.

Lemma byVote_ok : forall n R sizes,
  voteMapOk (subspaceVote R sizes) (fun i => severalBits (subspaceVote R sizes i)) (zrange 0 (Z.of_nat n)) (subspacesByVote n R sizes).
Proof.
  intros n R sizes. unfold subspacesByVote. apply (voteMap_fold _ (fun i => severalBits (subspaceVote R sizes i)) _ []).
  split; [constructor|]. split; [intros w is []|intros i []].
Qed.

(** The subspaces of one communicator. *)
Lemma byVote_entry : forall n R sizes w is i, In (w, is) (subspacesByVote n R sizes) ->
  (In i is <-> 0 <= i < Z.of_nat n /\ subspaceVote R sizes i = w /\ shared R sizes i).
Proof.
  intros n R sizes w is i H. destruct (byVote_ok n R sizes) as (_ & HE & _). destruct (HE w is H) as [-> _].
  rewrite filter_In, zrange_In, andb_true_iff, Z.eqb_eq, several_shared. tauto.
Qed.
Lemma byVote_key : forall n R sizes w is, In (w, is) (subspacesByVote n R sizes) -> exists i, In i is /\ subspaceVote R sizes i = w /\ 0 <= i < Z.of_nat n.
Proof.
  intros n R sizes w is H. destruct (byVote_ok n R sizes) as (_ & HE & _). destruct (HE w is H) as [E N].
  destruct is as [|i is]; [contradiction|]. exists i. split; [now left|]. assert (X : In i (i :: is)) by now left.
  rewrite E in X. apply filter_In in X. destruct X as [X1 X2]. apply zrange_In in X1. apply andb_true_iff in X2. destruct X2 as [X2 _].
  apply Z.eqb_eq in X2. auto.
Qed.
Lemma byVote_sorted : forall n R sizes w is, In (w, is) (subspacesByVote n R sizes) -> StronglySorted Z.lt is.
Proof.
  intros n R sizes w is H. destruct (byVote_ok n R sizes) as (_ & HE & _). destruct (HE w is H) as [-> _].
  assert (Z : StronglySorted Z.lt (zrange 0 (Z.of_nat n))) by apply zrange_sorted. revert Z. generalize (zrange 0 (Z.of_nat n)). intros l.
  induction l as [|x l IH]; intros S; cbn [filter]; [constructor|]. apply StronglySorted_inv in S. destruct S as [S F].
  destruct (_ && _); auto. constructor; auto. rewrite Forall_forall in *. intros y Hy. apply filter_In in Hy. now apply F.
Qed.
Lemma byVote_NoDup_keys : forall n R sizes, NoDup (map fst (subspacesByVote n R sizes)).
Proof.
  intros n R sizes. destruct (byVote_ok n R sizes) as (HS & _ & _). revert HS. generalize (map fst (subspacesByVote n R sizes)). intros l.
  induction l as [|x l IH]; intros S; constructor; apply StronglySorted_inv in S; destruct S as [S F].
  - intros X. rewrite Forall_forall in F. specialize (F x X). lia.
  - auto.
Qed.

Lemma vote_inj : forall R sizes i j, (R <= 256)%nat -> ranksOf (subspaceVote R sizes i) = ranksOf (subspaceVote R sizes j) ->
  subspaceVote R sizes i = subspaceVote R sizes j.
Proof.
  intros R sizes i j HR E. rewrite !ranksOf_vote in E by auto. apply Z.bits_inj'. intros k Hk. rewrite <- (Z2Nat.id k) by lia.
  apply eq_true_iff_eq. rewrite !vote_testbit, E. tauto.
Qed.

(** ** What a group stores *)
Lemma comms_In : forall n R sizes r M is, (R <= 256)%nat ->
  (In (M, is) (subspaceCommunicators n R sizes r) <-> In r M /\ exists w, In (w, is) (subspacesByVote n R sizes) /\ M = ranksOf w).
Proof.
  intros n R sizes r M is HR. unfold subspaceCommunicators. rewrite filter_In, in_map_iff. cbn [fst]. rewrite memN_In. split.
  - intros [([w is'] & E & H) Hr]. cbn [fst snd] in E. injection E as <- <-. split; auto. exists w. auto.
  - intros [Hr (w & H & ->)]. split; auto. exists (w, is). auto.
Qed.

Lemma comms_entry : forall n R sizes r M is, (R <= 256)%nat -> In (M, is) (subspaceCommunicators n R sizes r) ->
  In r M /\ is <> [] /\ StronglySorted Z.lt is /\ (forall i, In i is <-> 0 <= i < Z.of_nat n /\ shared R sizes i /\ holders R sizes i = M).
Proof.
  intros n R sizes r M is HR H. apply comms_In in H; auto. destruct H as [Hr (w & H & ->)].
  destruct (byVote_key n R sizes w is H) as (i0 & Hi0 & E0 & Hn0). subst w. split; auto. split; [intros ->; destruct Hi0|].
  split; [now apply byVote_sorted in H|]. intros i. rewrite (byVote_entry n R sizes _ is i H), ranksOf_vote by auto. split.
  - intros (A & B & C). split; auto. split; [exact C|]. rewrite <- !ranksOf_vote by exact HR. now rewrite B.
  - intros (A & B & C). split; auto. split; [|exact B]. apply vote_inj; [exact HR|]. rewrite !ranksOf_vote by exact HR. exact C.
Qed.

Lemma comms_exists : forall n R sizes r i, (R <= 256)%nat -> 0 <= i < Z.of_nat n -> shared R sizes i -> In r (holders R sizes i) ->
  exists is, In (holders R sizes i, is) (subspaceCommunicators n R sizes r) /\ In i is.
Proof.
  intros n R sizes r i HR Hi S Hr. destruct (byVote_ok n R sizes) as (_ & _ & HX).
  destruct (HX i) as (is & H); [now apply zrange_In|now apply several_shared|]. exists is. split.
  - apply comms_In; auto. split; auto. exists (subspaceVote R sizes i). split; auto. symmetry. now apply ranksOf_vote.
  - apply (byVote_entry n R sizes _ is i H). auto.
Qed.

Lemma NoDup_filter' : forall {A : Type} (f : A -> bool) l, NoDup l -> NoDup (filter f l).
Proof. intros. now apply NoDup_filter. Qed.

Lemma comms_NoDup : forall n R sizes r, (R <= 256)%nat -> NoDup (map fst (subspaceCommunicators n R sizes r)).
Proof.
  intros n R sizes r HR. unfold subspaceCommunicators. pose proof (byVote_NoDup_keys n R sizes) as ND.
  assert (K : forall w is, In (w, is) (subspacesByVote n R sizes) -> exists i, subspaceVote R sizes i = w).
  { intros w is H. destruct (byVote_key _ _ _ _ _ H) as (i & _ & E & _). now exists i. }
  revert ND K. generalize (subspacesByVote n R sizes). intros m. induction m as [|[w is] m IH]; intros ND K; cbn [map filter fst snd]; [constructor|].
  cbn [map fst] in ND. apply NoDup_cons_iff in ND. destruct ND as [N ND].
  assert (I : NoDup (map fst (filter (fun c : list nat * list Z => memN r (fst c)) (map (fun vi => (ranksOf (fst vi), snd vi)) m)))).
  { apply IH; auto. intros w' is' H. apply (K w' is'). now right. }
  destruct (memN r (ranksOf w)); auto. cbn [map fst]. constructor; auto. intros X. apply in_map_iff in X. destruct X as ([M is'] & E & X).
  cbn [fst] in E. subst M. apply filter_In in X. destruct X as [X _]. apply in_map_iff in X. destruct X as ([w' is''] & E & X). cbn [fst snd] in E. injection E as E _.
  apply N. destruct (K w is (or_introl eq_refl)) as (i & Ei). destruct (K w' is'' (or_intror X)) as (j & Ej). subst w w'.
  apply vote_inj in E; [|exact HR]. rewrite <- E. exact (in_map fst _ _ X).
Qed.

(** ** The outgroup communicator *)

Lemma forMany_In : forall n R sizes i, In i (subspacesForMany n R sizes) <-> 0 <= i < Z.of_nat n /\ shared R sizes i.
Proof. intros. unfold subspacesForMany. rewrite filter_In, zrange_In, several_shared. tauto. Qed.

Lemma manyFold_testbit : forall R sizes l v k, 0 <= k ->
  Z.testbit (fold_left (fun v i => Z.lor v (subspaceVote R sizes i)) l v) k =
  (Z.testbit v k || existsb (fun i => Z.testbit (subspaceVote R sizes i) k) l)%bool.
Proof.
  intros R sizes. induction l as [|i l IH]; intros v k Hk; cbn [fold_left existsb]; [now rewrite orb_false_r|].
  rewrite IH by auto. now rewrite Z.lor_spec, <- orb_assoc.
Qed.

Lemma manyGroups_In : forall n R sizes r, (R <= 256)%nat ->
  (In r (ranksOf (manyGroups n R sizes)) <-> exists i, 0 <= i < Z.of_nat n /\ shared R sizes i /\ In r (holders R sizes i)).
Proof.
  intros n R sizes r HR. rewrite ranksOf_In. unfold manyGroups. rewrite manyFold_testbit by lia. rewrite Z.bits_0. cbn [orb].
  rewrite existsb_exists. split.
  - intros [_ (i & Hi & B)]. apply forMany_In in Hi. apply vote_testbit in B. exists i. tauto.
  - intros (i & Hi & S & Hr). split; [apply holders_In in Hr; lia|]. exists i. split; [now apply forMany_In|now apply vote_testbit].
Qed.

Lemma maxSize_fold : forall (sizes : nat -> list Z) i l m, m <= fold_left (fun m r => Z.max m (nth (Z.to_nat i) (sizes r) 0)) l m /\
  (forall r, In r l -> nth (Z.to_nat i) (sizes r) 0 <= fold_left (fun m r => Z.max m (nth (Z.to_nat i) (sizes r) 0)) l m) /\
  (fold_left (fun m r => Z.max m (nth (Z.to_nat i) (sizes r) 0)) l m = m \/
   exists r, In r l /\ fold_left (fun m r => Z.max m (nth (Z.to_nat i) (sizes r) 0)) l m = nth (Z.to_nat i) (sizes r) 0).
Proof.
  intros sizes i. induction l as [|r l IH]; intros m; cbn [fold_left].
  - split; [lia|]. split; [intros r []|now left].
  - destruct (IH (Z.max m (nth (Z.to_nat i) (sizes r) 0))) as (A & B & C). split; [lia|]. split.
    + intros x [<-|Hx]; [lia|auto].
    + destruct C as [C|(x & Hx & C)]; [|right; exists x; split; auto; now right].
      destruct (Z_le_gt_dec (nth (Z.to_nat i) (sizes r) 0) m); [left; lia|]. right. exists r. split; [now left|]. lia.
Qed.

(** If all groups that have subspace [i] have it with [c] points, the maximum is [c] or nobody has it. *)
Lemma maxSize_value : forall R sizes i c, 0 <= c -> (forall r, (r < R)%nat -> nth (Z.to_nat i) (sizes r) 0 = 0 \/ nth (Z.to_nat i) (sizes r) 0 = c) ->
  maxSize R sizes i = (if existsb (has sizes i) (seq 0 R) then c else 0).
Proof.
  intros R sizes i c Hc H. unfold maxSize. destruct (maxSize_fold sizes i (seq 0 R) 0) as (A & B & C).
  destruct (existsb (has sizes i) (seq 0 R)) eqn:E.
  - apply existsb_exists in E. destruct E as (r & Hr & P). unfold has in P. rewrite Z.gtb_lt in P. specialize (B r Hr).
    apply in_seq in Hr. destruct (H r ltac:(lia)); [lia|]. destruct C as [C|(x & Hx & C)]; [lia|]. apply in_seq in Hx. destruct (H x ltac:(lia)); lia.
  - destruct C as [C|(x & Hx & C)]; auto. rewrite C. pose proof Hx as Hx'. apply in_seq in Hx'. destruct (H x ltac:(lia)) as [Z|Z]; auto.
    assert (F : existsb (has sizes i) (seq 0 R) = false -> has sizes i x = false).
    { intros F. destruct (has sizes i x) eqn:P; auto. rewrite <- F. symmetry. apply existsb_exists. exists x. auto. }
    specialize (F E). unfold has in F. rewrite Z.gtb_ltb, Z.ltb_ge in F. lia.
Qed.
