(** Proofs about the tree of the fault simulator. *)
From Verif Require Import Base SimFTModel.
Open Scope Z_scope.
Ltac Zify.zify_post_hook ::= idtac.

(** All ranks of a communicator with [n] processes. *)
Definition ranks (n : Z) : list Z := map Z.of_nat (seq 0 (Z.to_nat n)).
Lemma ranks_in : forall n x, In x (ranks n) <-> 0 <= x < n.
Proof.
  intros n x. unfold ranks. rewrite in_map_iff. split; [intros (i & <- & H); apply in_seq in H; lia|].
  intros H. exists (Z.to_nat x). rewrite in_seq. lia.
Qed.
Lemma NoDup_ranks : forall n, NoDup (ranks n).
Proof. intros n. unfold ranks. apply FinFun.Injective_map_NoDup; [intros a b H; lia|apply seq_NoDup]. Qed.

Section Tree.
Variable root n : Z.
Variable k : nat.
Hypothesis root_ok : 0 <= root < n.
Hypothesis k_pos : (0 < k)%nat.
Let N (x : Z) : Z := convertId (normalizeId x root) n.
Let D (y : Z) : Z := convertId (deNormalizeId y root) n.
Let K := Z.of_nat k.
Definition parentOf (x : Z) : Z := convertId (deNormalizeId ((convertId (normalizeId x root) n - 1) / Z.of_nat k) root) n.

Lemma convert_cases : forall i, (i >= n /\ convertId i n = i - n) \/ (i < 0 /\ convertId i n = n + i) \/ (0 <= i < n /\ convertId i n = i).
Proof. intros i. unfold convertId. rewrite Z.geb_leb. destruct (Z.leb_spec n i); [left; lia|]. destruct (Z.ltb_spec i 0); [right; left; lia|right; right; lia]. Qed.
Lemma N_range : forall x, 0 <= x < n -> 0 <= N x < n.
Proof. intros x H. unfold N, normalizeId. destruct (convert_cases (x - root)) as [[? E]|[[? E]|[? E]]]; rewrite E; lia. Qed.
Lemma D_range : forall y, 0 <= y < n -> 0 <= D y < n.
Proof. intros y H. unfold D, deNormalizeId. destruct (convert_cases (y + root)) as [[? E]|[[? E]|[? E]]]; rewrite E; lia. Qed.
Lemma N_D : forall y, 0 <= y < n -> N (D y) = y.
Proof.
  intros y H. unfold N, D, normalizeId, deNormalizeId. destruct (convert_cases (y + root)) as [[? E]|[[? E]|[? E]]]; rewrite E;
    match goal with |- convertId ?e n = _ => destruct (convert_cases e) as [[? F]|[[? F]|[? F]]]; rewrite F; lia end.
Qed.
Lemma D_N : forall x, 0 <= x < n -> D (N x) = x.
Proof.
  intros x H. unfold N, D, normalizeId, deNormalizeId. destruct (convert_cases (x - root)) as [[? E]|[[? E]|[? E]]]; rewrite E;
    match goal with |- convertId ?e n = _ => destruct (convert_cases e) as [[? F]|[[? F]|[? F]]]; rewrite F; lia end.
Qed.
Lemma N_root : forall x, 0 <= x < n -> (N x = 0 <-> x = root).
Proof. intros x H. unfold N, normalizeId. destruct (convert_cases (x - root)) as [[? E]|[[? E]|[? E]]]; rewrite E; lia. Qed.
Lemma div_bounds : forall x, 0 <= x < n -> N x <> 0 -> 0 <= (N x - 1) / K < N x.
Proof.
  intros x H NZ. assert (R := N_range x H). assert (0 < K) by (unfold K; lia). split; [apply Z.div_pos; lia|].
  apply Z.div_lt_upper_bound; nia.
Qed.
Lemma parent_N : forall x, 0 <= x < n -> N x <> 0 -> N (parentOf x) = (N x - 1) / K.
Proof. intros x H NZ. assert (R := N_range x H). assert (B := div_bounds x H NZ). apply (N_D ((N x - 1) / K)). lia. Qed.
Lemma parent_range : forall x, 0 <= x < n -> N x <> 0 -> 0 <= parentOf x < n.
Proof. intros x H NZ. assert (R := N_range x H). assert (B := div_bounds x H NZ). apply (D_range ((N x - 1) / K)). lia. Qed.

Lemma successors_spec : forall p c, 0 <= p < n -> In c (successors root p n k) <-> 0 <= c < n /\ c <> root /\ parentOf c = p.
Proof.
  intros p c Hp. unfold successors. rewrite in_flat_map. fold (N p). fold K. assert (Rp := N_range p Hp). assert (HK : 0 < K) by (unfold K; lia). split.
  - intros (i & Hi & Hc). apply in_seq in Hi. cbv zeta in Hc. destruct (Z.ltb_spec (N p * K + Z.of_nat i + 1) n); [|contradiction].
    destruct Hc as [<-|[]]. fold (D (N p * K + Z.of_nat i + 1)). assert (B : 0 <= N p * K + Z.of_nat i + 1 < n) by nia.
    assert (R := D_range _ B). assert (E := N_D _ B). split; [exact R|]. assert (NZ : N (D (N p * K + Z.of_nat i + 1)) <> 0) by (rewrite E; nia).
    split; [intros F; apply NZ; apply N_root; auto|].
    etransitivity; [symmetry; apply D_N; now apply parent_range|]. rewrite parent_N by auto. rewrite E.
    replace (N p * K + Z.of_nat i + 1 - 1) with (Z.of_nat i + N p * K) by lia. rewrite Z.div_add by lia. rewrite Z.div_small by (unfold K; lia). apply (D_N p Hp).
  - intros (Hc & NR & HP). assert (NZ : N c <> 0) by (rewrite N_root; auto). assert (R := N_range c Hc).
    assert (E : (N c - 1) / K = N p) by (rewrite <- HP; symmetry; now apply parent_N).
    assert (M := Z.div_mod (N c - 1) K ltac:(lia)). assert (MB := Z.mod_pos_bound (N c - 1) K HK). rewrite E in M.
    exists (Z.to_nat ((N c - 1) mod K)). split; [apply in_seq; unfold K in *; lia|]. cbv zeta. rewrite Z2Nat.id by lia.
    replace (N p * K + (N c - 1) mod K + 1) with (N c) by lia. destruct (Z.ltb_spec (N c) n); [|lia]. left. exact (D_N c Hc).
Qed.
Lemma NoDup_successors : forall p, 0 <= p < n -> NoDup (successors root p n k).
Proof.
  intros p Hp. unfold successors. fold (N p). fold K. assert (Rp := N_range p Hp).
  assert (HK : 0 <= K) by (unfold K; lia). assert (B : 0 <= N p * K) by nia.
  generalize (seq_NoDup k 0). induction (seq 0 k) as [|i l IH]; intros ND; [constructor|]. inversion ND as [|? ? NI ND']; subst. cbn [flat_map].
  cbv zeta. destruct (Z.ltb_spec (N p * K + Z.of_nat i + 1) n); [|exact (IH ND')]. cbn [app]. constructor; [|exact (IH ND')].
  intros H1. apply in_flat_map in H1. destruct H1 as (j & Hj & HD). cbv zeta in HD. destruct (Z.ltb_spec (N p * K + Z.of_nat j + 1) n); [|contradiction].
  destruct HD as [HD|[]]. apply (f_equal N) in HD. fold (D (N p * K + Z.of_nat j + 1)) in HD. fold (D (N p * K + Z.of_nat i + 1)) in HD. rewrite !N_D in HD by lia. assert (i = j) by lia. subst. contradiction.
Qed.
Lemma predecessor_spec : forall c, 0 <= c < n -> c <> root -> predecessor root c n k = (N c - 1) / K + root.
Proof.
  intros c Hc NR. assert (NZ : N c <> 0) by (rewrite N_root; auto). assert (R := N_range c Hc). assert (HK : 0 < K) by (unfold K; lia).
  unfold predecessor. cbv zeta. fold (N c). fold K. unfold deNormalizeId. f_equal.
  rewrite Z.rem_mod_nonneg by lia. assert (M := Z.div_mod (N c - 1) K ltac:(lia)). replace (N c - 1 - (N c - 1) mod K) with (K * ((N c - 1) / K)) by lia.
  rewrite Z.quot_div_nonneg by (try lia; assert (B := div_bounds c Hc NZ); nia). rewrite Z.mul_comm. apply Z.div_mul. lia.
Qed.
(** If no predecessor would need to be converted. *)
Lemma predecessor_parent : forall c, (n - 2) / K + root < n -> 0 <= c < n -> c <> root -> predecessor root c n k = parentOf c.
Proof.
  intros c HB Hc NR. rewrite predecessor_spec by auto. assert (NZ : N c <> 0) by (rewrite N_root; auto). assert (R := N_range c Hc). assert (B := div_bounds c Hc NZ).
  unfold parentOf. fold (N c). fold K. unfold deNormalizeId. assert (HK : 0 < K) by (unfold K; lia).
  assert ((N c - 1) / K <= (n - 2) / K) by (apply Z.div_le_mono; lia).
  destruct (convert_cases ((N c - 1) / K + root)) as [[? E]|[[? E]|[? E]]]; rewrite E; lia.
Qed.

(** ** Ancestors *)
Inductive anc (r : Z) : Z -> Prop :=
| anc_refl : anc r r
| anc_step : forall x, 0 <= x < n -> x <> root -> anc r (parentOf x) -> anc r x.
Lemma anc_range : forall r x, 0 <= r < n -> anc r x -> 0 <= x < n.
Proof. intros r x H A. now inversion A; subst. Qed.
Lemma anc_le : forall r x, 0 <= r < n -> anc r x -> N r <= N x.
Proof.
  intros r x H A. induction A as [|x Hx NR A IH]; [lia|]. assert (NZ : N x <> 0) by (rewrite N_root; auto). rewrite parent_N in IH by auto.
  assert (B := div_bounds x Hx NZ). lia.
Qed.
Lemma anc_trans : forall r s x, anc r s -> anc s x -> anc r x.
Proof. intros r s x A B. induction B as [|x Hx NR B IH]; auto. now apply anc_step. Qed.
Lemma anc_child : forall r x, 0 <= r < n -> anc r x <-> x = r \/ exists s, In s (successors root r n k) /\ anc s x.
Proof.
  intros r x Hr. split.
  - intros A. induction A as [|x Hx NR A IH]; [now left|]. right. destruct IH as [E|(s & Hs & B)].
    + exists x. split; [apply successors_spec; auto|constructor].
    + exists s. split; auto. now apply anc_step.
  - intros [->|(s & Hs & A)]; [constructor|]. apply successors_spec in Hs; auto. destruct Hs as (H1 & H2 & H3). apply anc_trans with s; auto.
    apply anc_step; auto. rewrite H3. constructor.
Qed.
Lemma child_not_above : forall s, 0 <= s < n -> s <> root -> ~ anc s (parentOf s).
Proof.
  intros s H NR A. assert (NZ : N s <> 0) by (rewrite N_root; auto). apply anc_le in A; auto. rewrite parent_N in A by auto. assert (B := div_bounds s H NZ). lia.
Qed.
Lemma anc_unique : forall r s s' x, 0 <= r < n -> In s (successors root r n k) -> In s' (successors root r n k) -> anc s x -> anc s' x -> s = s'.
Proof.
  intros r s s' x Hr Hs Hs' A. apply successors_spec in Hs; auto. apply successors_spec in Hs'; auto. destruct Hs as (H1 & H2 & H3), Hs' as (G1 & G2 & G3).
  subst r. induction A as [|x Hx NR A IH]; intros B.
  - inversion B as [E|y Hy NY B' E]; auto. exfalso. apply (child_not_above s'); auto. now rewrite G3.
  - inversion B as [E|y Hy NY B' E]; auto. exfalso. rewrite <- E, G3 in A. now apply (child_not_above s).
Qed.
Lemma anc_root : forall x, 0 <= x < n -> anc root x.
Proof.
  assert (G : forall m x, 0 <= x < n -> N x < Z.of_nat m -> anc root x).
  { induction m as [|m IH]; intros x Hx HN; [assert (R := N_range x Hx); lia|]. destruct (Z.eq_dec x root) as [->|NR]; [constructor|].
    assert (NZ : N x <> 0) by (rewrite N_root; auto). apply anc_step; auto. apply IH; [now apply parent_range|]. rewrite parent_N by auto.
    assert (B := div_bounds x Hx NZ). lia. }
  intros x Hx. apply (G (Z.to_nat n)); auto. assert (R := N_range x Hx). lia.
Qed.

(** ** The reduction *)
Variable procs : Z -> simProc.
Definition deadOf (l : list Z) : Z := Z.of_nat (length (filter (fun r => isDead (procs r)) l)).
Definition someAlive (l : list Z) : bool := existsb (fun r => negb (isDead (procs r))) l.
Definition callOp (o : Z) (l : list Z) : Prop := forall x, In x l -> isDead (procs x) = false -> nextOp (procs x) = o.
Definition summary (L : list Z) (v : reduceVec) : Prop :=
  rDead v = deadOf L /\ (forall x, In x L -> numNBC (procs x) <= rNBC v) /\ (In (rRank v) L /\ numNBC (procs (rRank v)) = rNBC v) /\
  (forall o, o <> 0 -> callOp o L -> rOp v = if someAlive L then o else 0).
Definition summaryFrom (a : reduceVec) (L : list Z) (w : reduceVec) : Prop :=
  rDead w = rDead a + deadOf L /\ rNBC a <= rNBC w /\ (forall x, In x L -> numNBC (procs x) <= rNBC w) /\
  ((rRank w = rRank a /\ rNBC w = rNBC a) \/ (In (rRank w) L /\ numNBC (procs (rRank w)) = rNBC w)) /\
  (forall o, o <> 0 -> callOp o L -> rOp a = 0 \/ rOp a = o -> rOp w = if rOp a =? 0 then (if someAlive L then o else 0) else o).

Lemma deadOf_app : forall a b, deadOf (a ++ b) = deadOf a + deadOf b.
Proof. intros a b. unfold deadOf. rewrite filter_app, app_length. lia. Qed.
Lemma summaryFrom_nil : forall a, summaryFrom a [] a.
Proof.
  intros a. split; [unfold deadOf; cbn; lia|]. split; [lia|]. split; [intros x []|]. split; [now left|]. intros o NZ _ HA. cbn [someAlive existsb].
  destruct (Z.eqb_spec (rOp a) 0); lia.
Qed.
Lemma summaryFrom_app : forall a L1 v L2 w, summary L1 v -> summaryFrom (reduceOp a v) L2 w -> summaryFrom a (L1 ++ L2) w.
Proof.
  intros a L1 v L2 w (S1 & S2 & (S3 & S3') & S4) (T1 & T2 & T3 & T4 & T5). cbn [reduceOp rDead rNBC rRank rOp] in *.
  assert (M : rNBC a <= rNBC w /\ rNBC v <= rNBC w) by (destruct (Z.ltb_spec (rNBC a) (rNBC v)); lia).
  split; [rewrite deadOf_app; lia|]. split; [lia|]. split; [|split].
  - intros x Hx. apply in_app_iff in Hx. destruct Hx as [Hx|Hx]; [apply S2 in Hx; lia|auto].
  - destruct T4 as [[T4 T4']|[T4 T4']]; [|right; split; auto; apply in_app_iff; auto].
    destruct (Z.ltb_spec (rNBC a) (rNBC v)); [|now left]. right. rewrite T4, T4'. split; auto. apply in_app_iff; auto.
  - intros o NZ HC HA. assert (C1 : callOp o L1) by (intros x Hx; apply HC; apply in_app_iff; auto).
    assert (C2 : callOp o L2) by (intros x Hx; apply HC; apply in_app_iff; auto). specialize (S4 o NZ C1).
    unfold someAlive in *. rewrite existsb_app. specialize (T5 o NZ C2). rewrite S4 in T5.
    destruct (Z.eqb_spec (rOp a) 0) as [EA|EA].
    + destruct (existsb _ L1) eqn:E1; cbn [orb].
      * destruct (Z.eqb_spec o 0); [lia|]. apply T5. now right.
      * destruct (Z.eqb_spec 0 0); [|lia]. apply T5. now left.
    + destruct (Z.eqb_spec (rOp a) 0); [lia|]. apply T5. right. lia.
Qed.
Lemma summary_finish : forall r L w, summaryFrom (startVec (procs r) r) L w -> summary (r :: L) (finishVec (procs r) w).
Proof.
  intros r L w (S1 & S2 & S3 & S4 & S5). cbn [startVec rDead rNBC rRank rOp] in *.
  assert (E : rNBC (finishVec (procs r) w) = rNBC w /\ rRank (finishVec (procs r) w) = rRank w /\ rOp (finishVec (procs r) w) = rOp w)
    by (unfold finishVec; destruct (isDead (procs r)); cbn; auto).
  destruct E as (E1 & E2 & E3). split; [|split; [|split]].
  - unfold finishVec, deadOf in *. cbn [filter]. destruct (isDead (procs r)); cbn [rDead length]; lia.
  - rewrite E1. intros x [<-|Hx]; auto.
  - rewrite E1, E2. destruct S4 as [[-> ->]|[S4 S4']]; cbn [In]; auto.
  - rewrite E3. intros o NZ HC. assert (C : callOp o L) by (intros x Hx; apply HC; now right). specialize (S5 o NZ C). unfold someAlive. cbn [existsb].
    assert (CR := HC r (or_introl eq_refl)). destruct (isDead (procs r)) eqn:ED; cbn [negb orb].
    + rewrite S5 by auto. reflexivity.
    + rewrite S5 by auto. rewrite (CR eq_refl). destruct (Z.eqb_spec o 0); [lia|reflexivity].
Qed.

Scheme reduces_ind2 := Induction for reduces Sort Prop
with collects_ind2 := Induction for collects Sort Prop.
Combined Scheme reduces_mut from reduces_ind2, collects_ind2.

Lemma reduce_summary :
  (forall r v, reduces root n k procs r v -> 0 <= r < n -> exists L, (forall x, In x L <-> anc r x) /\ NoDup L /\ summary L v) /\
  (forall r l a w, collects root n k procs r l a w -> 0 <= r < n -> NoDup l -> incl l (successors root r n k) ->
     exists L, (forall x, In x L <-> exists s, In s l /\ anc s x) /\ NoDup L /\ summaryFrom a L w).
Proof.
  apply (reduces_mut root n k procs
    (fun r v _ => 0 <= r < n -> exists L, (forall x, In x L <-> anc r x) /\ NoDup L /\ summary L v)
    (fun r l a w _ => 0 <= r < n -> NoDup l -> incl l (successors root r n k) ->
       exists L, (forall x, In x L <-> exists s, In s l /\ anc s x) /\ NoDup L /\ summaryFrom a L w)).
  - intros r order v HP _ IH Hr. destruct (IH Hr) as (L & H1 & H2 & H3).
    { apply (Permutation_NoDup (Permutation_sym HP)). now apply NoDup_successors. }
    { intros x Hx. now apply (Permutation_in _ HP). }
    assert (HS : forall s, In s order <-> In s (successors root r n k)) by (intros s; split; apply Permutation_in; [|apply Permutation_sym]; auto).
    exists (r :: L). split; [|split].
    + intros x. rewrite anc_child by auto. cbn [In]. rewrite H1. split; intros [E|(s & G1 & G2)]; auto; right; exists s; split; auto; now apply HS.
    + constructor; auto. intros HI. apply H1 in HI. destruct HI as (s & G1 & G2). apply HS in G1. apply successors_spec in G1; auto. destruct G1 as (G1 & G3 & <-).
      now apply (child_not_above s).
    + now apply summary_finish.
  - intros r a Hr _ _. exists []. split; [|split; [constructor|apply summaryFrom_nil]]. intros x. split; [intros []|intros (s & [] & _)].
  - intros r s l a v w _ IH1 _ _ IH2 Hr ND HI. inversion ND as [|? ? NI ND']; subst.
    assert (Hs : In s (successors root r n k)) by (apply HI; now left). assert (Hs' := Hs). apply successors_spec in Hs'; auto. destruct Hs' as (G1 & G2 & G3).
    destruct (IH1 G1) as (L1 & A1 & A2 & A3). destruct (IH2 Hr ND') as (L2 & B1 & B2 & B3); [intros x Hx; apply HI; now right|].
    exists (L1 ++ L2). split; [|split].
    + intros x. rewrite in_app_iff, A1, B1. cbn [In]. split; [intros [H|(t & H1 & H2)]; [exists s; auto|exists t; auto]|].
      intros (t & [<-|H1] & H2); [now left|right; exists t; auto].
    + apply NoDup_app_intro; auto. intros x H1 H2. apply A1 in H1. apply B1 in H2. destruct H2 as (t & H2 & H3). apply NI.
      assert (E : s = t) by (apply (anc_unique r s t x); auto; apply HI; now right). now subst.
    + apply summaryFrom_app with v; auto.
Qed.
Lemma root_summary : forall v, reduces root n k procs root v -> summary (ranks n) v.
Proof.
  intros v HR. destruct (proj1 reduce_summary root v HR root_ok) as (L & H1 & H2 & S1 & S2 & (S3 & S3') & S4).
  assert (HP : Permutation L (ranks n)).
  { apply NoDup_Permutation; auto; [apply NoDup_ranks|]. intros x. rewrite H1, ranks_in. split; [apply anc_range; auto|apply anc_root]. }
  assert (HI : forall x, In x L <-> In x (ranks n)) by (intros x; split; apply Permutation_in; [|apply Permutation_sym]; auto).
  split; [|split; [|split]].
  - rewrite S1. unfold deadOf. f_equal. apply Permutation_length. clear - HP. induction HP as [|x a b _ IH|x y a|a b c _ IH1 _ IH2]; cbn [filter]; auto.
    + destruct (isDead (procs x)); auto.
    + destruct (isDead (procs x)), (isDead (procs y)); auto. constructor.
    + now apply perm_trans with (filter (fun r => isDead (procs r)) b).
  - intros x Hx. apply S2. now apply HI.
  - split; auto. now apply HI.
  - intros o NZ HC. rewrite (S4 o NZ); [|intros x Hx; apply HC; now apply HI]. enough (E : someAlive L = someAlive (ranks n)) by now rewrite E. unfold someAlive. apply eq_true_iff_eq. rewrite !existsb_exists.
    split; intros (x & Hx & E); exists x; split; auto; now apply HI.
Qed.

(** With right predecessors, all processes get to the end. *)
Hypothesis preds_ok : (n - 2) / K + root < n.
Lemma reduces_all : forall r, 0 <= r < n -> exists v, reduces root n k procs r v.
Proof.
  assert (G : forall m r, 0 <= r < n -> n - N r <= Z.of_nat m -> exists v, reduces root n k procs r v).
  { induction m as [|m IH]; intros r Hr HN; [assert (R := N_range r Hr); lia|].
    assert (C : forall l a, incl l (successors root r n k) -> exists w, collects root n k procs r l a w).
    { induction l as [|s l IHl]; intros a HI; [exists a; constructor|]. assert (Hs : In s (successors root r n k)) by (apply HI; now left).
      apply successors_spec in Hs; auto. destruct Hs as (G1 & G2 & G3). assert (NZ : N s <> 0) by (rewrite N_root; auto).
      assert (B := div_bounds s G1 NZ). assert (P := parent_N s G1 NZ). rewrite G3 in P. destruct (IH s G1) as (v & Hv); [lia|].
      destruct (IHl (reduceOp a v)) as (w & Hw); [intros x Hx; apply HI; now right|]. exists w. apply C_cons with v; auto. now rewrite predecessor_parent. }
    destruct (C (successors root r n k) (startVec (procs r) r) (incl_refl _)) as (w & Hw). eexists. eapply R_proc; [apply Permutation_refl|exact Hw]. }
  intros r Hr. apply (G (Z.to_nat n)); auto. assert (R := N_range r Hr). lia.
Qed.
Lemma delivered_all : forall (A : Type) (m : A) r, 0 <= r < n -> delivered root n k m r m.
Proof.
  intros A m r Hr. assert (H := anc_root r Hr). induction H as [|x Hx NR H IH]; [constructor|]. assert (NZ : N x <> 0) by (rewrite N_root; auto).
  apply D_next with (parentOf x); [|apply successors_spec; auto; now apply parent_range|now apply predecessor_parent].
  apply IH. now apply parent_range.
Qed.
Lemma delivered_same : forall (A : Type) (m x : A) r, delivered root n k m r x -> x = m.
Proof. intros A m x r H. induction H; auto. Qed.
End Tree.
