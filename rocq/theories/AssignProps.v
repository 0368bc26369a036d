(** Properties C16, C17, C61 and C62: dividing a scheme among systems and process groups. *)
From Coq Require Import QArith Qround Qabs Lqa.
From Verif Require Import Base LevelSetsModel LevelSetsProofs CombiSchemeModel DofProofs CombiSchemeProofs AssignModel AssignProofs.
Open Scope Z_scope.

(** C16: for non-negative fractions whose sum deviates from 1 by less than half a grid, the parts of the systems, read in
    order, are exactly the scheme, and every level keeps its coefficient. *)
Theorem C16_third_level_split_partial : forall levels coeffs fractions,
  length levels = length coeffs -> (2 <= length fractions)%nat -> Forall (fun f => 0 <= f)%Q fractions ->
  let total := fold_right Qplus 0%Q fractions in
  (Qabs (inject_Z (Z.of_nat (length levels)) * (total - 1)) < 1 # 2)%Q ->
  exists parts, length parts = length fractions /\
    (forall s, (s < length fractions)%nat ->
      createThirdLevelScheme levels coeffs s (length fractions) fractions = Some (nth s parts ([], []))) /\
    concat (map fst parts) = levels /\ concat (map snd parts) = coeffs /\
    Forall (fun p => length (fst p) = length (snd p)) parts.
Proof.
  intros levels coeffs fr L L2 F total H.
  apply Qabs_Qlt_condition in H as [H1 H2].
  set (n := Z.of_nat (length levels)) in *.
  assert (R : roundQ (inject_Z n * (0 + qsum fr)) = n).
  { change (qsum fr) with total. apply roundQ_unique; lra. }
  assert (R0 : roundQ (inject_Z n * 0) = 0) by (apply roundQ_unique; change (inject_Z 0) with 0%Q; lra).
  destruct (decomposeLoop_spec levels coeffs fr 0 0 L F (Qle_refl 0) (eq_sym R0) ltac:(lia) R) as (parts & E & Lp & C1 & C2 & FF).
  exists parts. split; auto. split.
  - intros s Hs. unfold createThirdLevelScheme, decomposeScheme. destruct (Nat.ltb_spec (length fr) 2); [lia|].
    rewrite E. apply nth_error_nth'. lia.
  - auto.
Qed.

(** Within the tolerance 1e-3 that the code asserts, grids can get lost. *)
Theorem C16_third_level_split_refuted : exists levels coeffs fractions,
  length levels = length coeffs /\ Forall (fun f => 0 <= f)%Q fractions /\
  (Qabs (fold_right Qplus 0 fractions - 1) < 1 # 1000)%Q /\
  exists parts, decomposeScheme levels coeffs fractions = Some parts /\
    (length (concat (map fst parts)) < length levels)%nat.
Proof.
  exists (repeat [1] (Z.to_nat 1500)), (repeat 1 (Z.to_nat 1500)), [1 # 2; 4995 # 10000]%Q. split; [now rewrite !repeat_length|]. split.
  - repeat constructor; unfold Qle; simpl; lia.
  - split; [reflexivity|]. vm_compute. eexists. split; [reflexivity|]. simpl. lia.
Qed.

(** C17: the three assignments give every grid with its own number, coefficient and level to exactly one group. *)
Theorem C17_round_robin_partition : forall levels coeffs numGroups, (0 < numGroups)%nat -> length levels = length coeffs ->
  Permutation (flat_map (fun g => getRoundRobinLevels levels coeffs g numGroups) (seq 0 numGroups))
              (combine (combine (seq 0 (length levels)) coeffs) levels).
Proof.
  intros levels coeffs ng Hg L. unfold getRoundRobinLevels. rewrite pickTasks_flat. apply pickTasks_perm; auto.
  apply flat_map_nat_perm; try apply seq_NoDup.
  - intros g _. apply roundRobinLoop_NoDup. auto.
  - intros x. rewrite in_seq. split.
    + intros Hx. exists (x mod ng)%nat. split; [apply in_seq; pose proof (Nat.mod_upper_bound x ng); lia|].
      apply roundRobinLoop_In; auto; [lia|]. split; [lia|]. exists (x / ng)%nat. pose proof (Nat.div_mod x ng). lia.
    + intros [g [H1 H2]]. apply roundRobinLoop_In in H2; lia.
  - intros g h x Hg' Hh H1 H2. apply in_seq in Hg'. apply in_seq in Hh.
    apply roundRobinLoop_In in H1 as [_ [k E1]]; [|lia|lia]. apply roundRobinLoop_In in H2 as [_ [j E2]]; [|lia|lia].
    assert (g = x mod ng)%nat by (subst x; rewrite Nat.mod_add by lia; symmetry; apply Nat.mod_small; lia).
    assert (h = x mod ng)%nat by (rewrite E2; rewrite Nat.mod_add by lia; symmetry; apply Nat.mod_small; lia). congruence.
Qed.

Theorem C17_assigned_partition : forall levels coeffs pgNumbers (numGroups : nat), length levels = length coeffs ->
  length pgNumbers = length levels -> Forall (fun g => 0 <= g < Z.of_nat numGroups) pgNumbers ->
  Permutation (flat_map (fun g => getAssignedLevels levels coeffs pgNumbers (Z.of_nat g)) (seq 0 numGroups))
              (combine (combine (seq 0 (length levels)) coeffs) levels).
Proof.
  intros levels coeffs pg ng L LP F. unfold getAssignedLevels. rewrite (pickTasks_flat _ _ (fun g => filter (fun t => nth t pg 0 =? Z.of_nat g) (seq 0 (length pg)))).
  apply pickTasks_perm; auto. rewrite <- LP.
  apply flat_map_nat_perm; try apply seq_NoDup.
  - intros g _. apply NoDup_filter, seq_NoDup.
  - intros x. split.
    + intros Hx. exists (Z.to_nat (nth x pg 0)). apply in_seq in Hx. rewrite Forall_forall in F.
      specialize (F (nth x pg 0) ltac:(apply nth_In; lia)). split; [apply in_seq; lia|]. apply filter_In. split; [apply in_seq; lia|].
      apply Z.eqb_eq. lia.
    + intros [g [_ H]]. apply filter_In in H. tauto.
  - intros g h x _ _ H1 H2. apply filter_In in H1 as [_ H1]. apply filter_In in H2 as [_ H2]. lia.
Qed.

Theorem C17_load_balanced_partition : forall levels coeffs cost ids numGroups, (0 < numGroups)%nat ->
  length levels = length coeffs -> Permutation ids (seq 0 (length levels)) ->
  Permutation (flat_map (fun g => getLoadBalancedLevels levels coeffs cost ids g numGroups) (seq 0 numGroups))
              (combine (combine (seq 0 (length levels)) coeffs) levels).
Proof.
  intros levels coeffs cost ids ng Hg L P. unfold getLoadBalancedLevels.
  rewrite (pickTasks_flat _ _ (fun g => map fst (filter (fun p => Nat.eqb (snd p) g) (fst (balance cost ids ng))))).
  apply pickTasks_perm; auto. eapply Permutation_trans; [|exact P].
  assert (NI : NoDup ids) by (apply Permutation_sym in P; eapply Permutation_NoDup; [exact P|apply seq_NoDup]).
  assert (Hne : repeat 0 ng <> []) by (destruct ng; [lia|discriminate]).
  unfold balance. destruct (balanceLoop cost ids (repeat 0 ng)) as [a l] eqn:E. cbn [fst].
  pose proof (balanceLoop_tasks _ _ _ _ _ E) as T. destruct (balanceLoop_groups _ _ _ _ _ Hne E) as [G _].
  rewrite repeat_length in G. rewrite Forall_forall in G. rewrite <- T in NI |- *.
  apply flat_map_nat_perm; auto; try apply seq_NoDup.
  - intros g _. clear -NI. induction a as [|[t h] a IH]; cbn [filter map snd] in *; [constructor|]. inv NI.
    destruct (Nat.eqb h g); auto. cbn [map fst]. constructor; auto. intros C. apply H1.
    apply in_map_iff in C as [p [E C]]. apply filter_In in C as [C _]. apply in_map_iff. exists p. auto.
  - intros x. rewrite in_map_iff. split.
    + intros [[t g] [<- Hp]]. exists g. split; [apply in_seq; specialize (G _ Hp); cbn [snd] in G; lia|].
      apply in_map_iff. exists (t, g). split; auto. apply filter_In. split; auto. apply Nat.eqb_refl.
    + intros [g [_ H]]. apply in_map_iff in H as [p [Ep Hp]]. apply filter_In in Hp. exists p. tauto.
  - intros g h x _ _ H1 H2. apply in_map_iff in H1 as [[t1 g1] [E1 H1]]. apply in_map_iff in H2 as [[t2 g2] [E2 H2]].
    cbn [fst] in *. subst t1 t2. apply filter_In in H1 as [H1 Q1]. apply filter_In in H2 as [H2 Q2]. cbn [snd] in *.
    apply Nat.eqb_eq in Q1. apply Nat.eqb_eq in Q2. subst g1 g2. clear -NI H1 H2.
    induction a as [|[t k] a IH]; [contradiction|]. cbn [map fst] in NI. inv NI.
    destruct H1 as [E1|H1], H2 as [E2|H2].
    + congruence.
    + inv E1. exfalso. apply H3. apply in_map_iff. exists (x, h). auto.
    + inv E2. exfalso. apply H3. apply in_map_iff. exists (x, g). auto.
    + auto.
Qed.

(** C62: the numbers of grid points given to two groups differ by at most the largest component grid (for the greedy
    assignment, whatever the order of the tasks). *)
Theorem C62_greedy_balance : forall levels coeffs cost ids numGroups M g h,
  (g < numGroups)%nat -> (h < numGroups)%nat -> Forall (fun t => 0 <= cost t <= M) ids ->
  zsum (map cost ids) < 2 ^ 63 - 1 ->
  let load g := zsum (map (fun x => cost (fst (fst x))) (getLoadBalancedLevels levels coeffs cost ids g numGroups)) in
  load g - load h <= Z.max 0 M.
Proof.
  intros levels coeffs cost ids ng M g h Hg Hh F B load.
  assert (Hne : repeat 0 ng <> []) by (destruct ng; [lia|discriminate]).
  assert (Z0 : forall x, In x (repeat 0 ng) -> x = 0) by (intros x Hx; now apply repeat_spec in Hx).
  unfold load, getLoadBalancedLevels, balance. destruct (balanceLoop cost ids (repeat 0 ng)) as [a l] eqn:E. cbn [fst].
  assert (LD : forall k, (k < ng)%nat ->
    zsum (map (fun x => cost (fst (fst x))) (pickTasks levels coeffs (map fst (filter (fun p => Nat.eqb (snd p) k) a)))) = nth k l 0).
  { intros k Hk. rewrite (balanceLoop_loads _ _ _ _ _ Hne E k) by (now rewrite repeat_length).
    assert (ZK : nth k (repeat 0 ng) 0 = 0) by (apply Z0, nth_In; now rewrite repeat_length). rewrite ZK.
    unfold pickTasks. rewrite !map_map. cbn [fst]. lia. }
  rewrite !LD by auto. destruct (balanceLoop_groups _ _ _ _ _ Hne E) as [_ LL]. rewrite repeat_length in LL.
  assert (SP : spread (Z.max 0 M) l).
  { eapply (balanceLoop_spread cost (Z.max 0 M) ids (repeat 0 ng)); eauto.
    - eapply Forall_impl; [|exact F]. cbv beta. intros; lia.
    - intros x Hx. rewrite (Z0 x Hx). lia.
    - assert (ZS : zsum (repeat 0 ng) = 0) by (clear; induction ng; simpl; rewrite ?zsum_nil, ?zsum_cons; auto). lia.
    - intros x y Hx Hy. rewrite (Z0 x Hx), (Z0 y Hy). lia. }
  apply SP; apply nth_In; lia.
Qed.

(** C61: the conjoint set has no duplicates (so that counting its unknowns is right), is closed downwards, and consists of
    the levels below those pole elements of the active front that occur fewer than dim times. *)
Theorem C61_conjoint_set : forall dim spaces coeffs lmin, (0 < length spaces)%nat -> Forall (fun s => length s = dim) spaces ->
  let poles := flat_map (fun p => if snd p =? 1 then
       flat_map (fun d => map (fun x => upd (fst p) d x) (zrange (nth d lmin 0) (nth d (fst p) 0))) (seq 0 dim) else [])
       (combine spaces coeffs) in
  let r := getConjointSet spaces coeffs lmin in
  NoDup r /\
  (forall x, In x r <-> exists v, In v poles /\ (count_occ (list_eq_dec Z.eq_dec) poles v < dim)%nat /\
                        (x = v \/ Forall2 (fun a b => 1 <= a <= b) x v)) /\
  (forall x y, In x r -> Forall2 (fun a b => 1 <= a <= b) y x -> In y r).
Proof.
  intros dim spaces coeffs lmin Hs F poles r.
  assert (EP : poles = frontPoles spaces coeffs lmin).
  { unfold poles, frontPoles. rewrite !flat_map_concat_map. f_equal. apply map_ext_in. intros [s c] Hp. cbn [fst snd].
    apply in_combine_l in Hp. rewrite Forall_forall in F. destruct (c =? 1); auto. unfold polesBelow. now rewrite (F s Hp). }
  assert (D0 : length (nth 0 spaces []) = dim).
  { rewrite Forall_forall in F. apply F. apply nth_In. lia. }
  destruct (conjoint_spec dim (Z.of_nat dim) (poleCounts spaces coeffs lmin) [] (poleCounts_wf dim spaces coeffs lmin F)
    (NoDup_nil _) ltac:(simpl; tauto)) as [N M].
  pose proof (poleCounts_counts dim spaces coeffs lmin F) as C.
  assert (M' : forall x, In x r <-> exists v, In v poles /\ (count_occ (list_eq_dec Z.eq_dec) poles v < dim)%nat /\
                        (x = v \/ Forall2 (fun a b => 1 <= a <= b) x v)).
  { intros x. unfold r, getConjointSet. rewrite D0, M. rewrite EP. split.
    - intros [[]|[[v c] [Hp [Hc Hx]]]]. cbn [fst snd] in *. apply C in Hp as [I E]. unfold vcount in E. exists v. split; auto. split; auto. lia.
    - intros [v [I [Hc Hx]]]. right. exists (v, vcount v (frontPoles spaces coeffs lmin)). cbn [fst snd]. split; [apply C; auto|].
      split; auto. unfold vcount. lia. }
  split; [unfold r, getConjointSet; rewrite D0; exact N|]. split; auto.
  intros x y Hx Hy. apply M' in Hx as [v [I [Hc Hx]]]. apply M'. exists v. split; auto. split; auto. right.
  destruct Hx as [->|Hx]; auto. clear -Hx Hy. revert v Hx. induction Hy; intros v Hx; inv Hx; constructor; auto. lia.
Qed.

Example C16_ex : createThirdLevelScheme [[1; 2]; [2; 1]; [1; 1]] [1; 1; -1] 1 2 [1 # 2; 1 # 2]%Q = Some ([[1; 1]], [-1]) /\
  createThirdLevelScheme [[1; 2]; [2; 1]; [1; 1]] [1; 1; -1] 0 2 [1 # 2; 1 # 2]%Q = Some ([[1; 2]; [2; 1]], [1; 1]).
Proof. vm_compute. auto. Qed.
Example C17_ex : map (fun x => fst (fst x)) (getRoundRobinLevels (repeat [1] 7) (repeat 1 7) 1 3) = [1; 4]%nat /\
  map (fun x => fst (fst x)) (getLoadBalancedLevels (repeat [1] 4) (repeat 1 4) (fun t => Z.of_nat t + 1) [3; 2; 1; 0]%nat 0 2) = [3; 0]%nat.
Proof. vm_compute. auto. Qed.
Example C61_ex : getConjointSet [[1; 3]; [3; 1]; [1; 1]] [1; 1; -1] [1; 1] = [[1; 2]; [1; 1]; [2; 1]].
Proof. vm_compute. auto. Qed.
Example C62_ex : map (fun g => zsum (map (fun x => Z.of_nat (fst (fst x)))
    (getLoadBalancedLevels (repeat [1] 5) (repeat 1 5) Z.of_nat [4; 3; 2; 1; 0]%nat g 2))) [0; 1]%nat = [5; 5].
Proof. vm_compute. auto. Qed.

Print Assumptions C16_third_level_split_partial.
Print Assumptions C16_third_level_split_refuted.
Print Assumptions C17_round_robin_partition.
Print Assumptions C17_assigned_partition.
Print Assumptions C17_load_balanced_partition.
Print Assumptions C61_conjoint_set.
Print Assumptions C62_greedy_balance.
