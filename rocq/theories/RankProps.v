(** C35, C36: ranks and communicators. *)
From Verif Require Import Base Level1dProofs LevelSetsProofs CombiSchemeProofs RankModel.
From Coq Require Import Sorting.Sorted.
Open Scope Z_scope.
Ltac Zify.zify_post_hook ::= idtac.

(** ** MPI_Comm_split *)
Lemma insertByKey_last : forall key r l, (forall x, In x l -> key x <= key r) -> insertByKey key r l = l ++ [r].
Proof.
  induction l as [|x l IH]; intros H; [reflexivity|]. cbn [insertByKey app]. pose proof (H x (or_introl eq_refl)).
  destruct (Z.ltb_spec (key r) (key x)); [lia|]. f_equal. apply IH. intros y Hy. apply H. now right.
Qed.
Lemma insertAll_sorted : forall key l acc, StronglySorted (fun a b => key a <= key b) l -> (forall x y, In x acc -> In y l -> key x <= key y) ->
  fold_left (fun l r => insertByKey key r l) l acc = acc ++ l.
Proof.
  induction l as [|r l IH]; intros acc HS HA; cbn [fold_left]. { now rewrite app_nil_r. }
  apply StronglySorted_inv in HS as [HS HF]. rewrite Forall_forall in HF. rewrite insertByKey_last by (intros; apply HA; simpl; auto).
  rewrite IH; auto. { now rewrite <- app_assoc. }
  intros x y Hx Hy. apply in_app_iff in Hx as [Hx|[<-|[]]]; [apply HA; simpl; auto|now apply HF].
Qed.
Lemma splitRanks_spec : forall size color key c l, StronglySorted Z.lt l -> (forall x y, In x l -> In y l -> x < y -> key x <= key y) ->
  (forall r, In r l <-> 0 <= r < size /\ color r = Some c) -> splitRanks size color key c = l.
Proof.
  intros size color key c l HS HK HI. unfold splitRanks.
  assert (E : filter (hasColor color c) (zrange 0 size) = l).
  { apply sorted_ext; auto. { apply filter_sorted, zrange_sorted. }
    intros r. rewrite filter_In, zrange_In, HI. unfold hasColor. destruct (color r) as [c'|].
    - rewrite Z.eqb_eq. split; intros [? H]; split; auto; congruence.
    - split; intros [? H]; discriminate. }
  rewrite E, insertAll_sorted; auto. 2:{ intros ? ? []. }
  clear E HI. induction HS as [|x l HS IH HF]; constructor.
  - apply IH. intros; apply HK; simpl; auto.
  - rewrite Forall_forall in *. intros y Hy. apply HK; simpl; auto.
Qed.

Lemma map_id_range : forall l n, (forall r, In r l -> 0 <= r < n) -> map (fun r => nth (Z.to_nat r) (worldComm n) 0) l = l.
Proof.
  intros l n H. rewrite <- (map_id l) at 2. apply map_ext_in. intros r Hr. apply H in Hr. unfold worldComm, zrange.
  rewrite zseq_nth by lia. lia.
Qed.
Lemma map_sorted : forall (f : Z -> Z) l, (forall x y, x < y -> f x < f y) -> StronglySorted Z.lt l -> StronglySorted Z.lt (map f l).
Proof.
  intros f l H HS. induction HS as [|x l HS IH HF]; cbn [map]; constructor; auto. rewrite Forall_forall in *. intros y Hy.
  apply in_map_iff in Hy as (z & <- & Hz). auto.
Qed.

Lemma div_mod_form : forall n g p, 0 < n -> 0 <= p < n -> (g * n + p) / n = g /\ (g * n + p) mod n = p.
Proof.
  intros n g p Hn Hp. split.
  - symmetry. apply (Z.div_unique _ _ _ p); lia.
  - symmetry. apply (Z.mod_unique _ _ g); lia.
Qed.

(** The world is what initSystemConstants accepts. *)
Definition goodWorld (ngroup nprocs worldSize : Z) (withManager : bool) (manager : option Z) : Prop :=
  1 <= ngroup /\ 1 <= nprocs /\ managerRankWorld ngroup nprocs worldSize withManager = Some manager.

Lemma goodWorld_size : forall G n W wm m, goodWorld G n W wm m -> G * n <= W /\ (forall r, 0 <= r < W -> r < G * n \/ m = Some r) /\
  (forall r, m = Some r -> r = G * n /\ W = G * n + 1) /\ (wm = true <-> exists r, m = Some r).
Proof.
  intros G n W wm m (HG & Hn & HM). unfold managerRankWorld in HM. destruct wm.
  - destruct (Z.eqb_spec W (G * n + 1)) as [E|]; [|discriminate]. injection HM as <-. split; [lia|]. split; [|split].
    + intros r Hr. destruct (Z.eq_dec r (W - 1)) as [->|]; auto. left. lia.
    + intros r E2. injection E2 as <-. lia.
    + split; eauto.
  - destruct (Z.eqb_spec W (G * n)) as [E|]; [|discriminate]. injection HM as <-. split; [lia|]. split; [|split].
    + intros r Hr. left. lia.
    + discriminate.
    + split; [discriminate|]. intros [r E2]. discriminate.
Qed.

(** ** C35 *)
(** The local communicator of group [g] consists of the world ranks from g*nprocs on, in order; local rank [p] of group [g] is
    world rank g*nprocs + p. *)
Theorem C35_local_comm : forall ngroup nprocs worldSize wm manager g, goodWorld ngroup nprocs worldSize wm manager -> 0 <= g < ngroup ->
  Z.of_nat (length (localComm nprocs worldSize g)) = nprocs /\
  forall p, 0 <= p < nprocs -> nth (Z.to_nat p) (localComm nprocs worldSize g) 0 = g * nprocs + p.
Proof.
  intros G n W wm m g HW Hg. pose proof HW as (HG & Hn & _). pose proof (goodWorld_size _ _ _ _ _ HW) as (S1 & S2 & _).
  assert (E : localComm n W g = zrange (g * n) (g * n + n)).
  { unfold localComm, commSplit. unfold worldComm at 2. rewrite zrange_length. replace (Z.of_nat (Z.to_nat (W - 0))) with W by nia.
    assert (SR : splitRanks W (localColor n) (localKey n) g = zrange (g * n) (g * n + n)).
    { apply splitRanks_spec; [apply zrange_sorted| |].
      - intros x y Hx Hy H. apply zrange_In in Hx, Hy. unfold localKey. replace (x / n) with g by (apply (Z.div_unique _ _ _ (x - n * g)); lia).
        replace (y / n) with g by (apply (Z.div_unique _ _ _ (y - n * g)); lia). lia.
      - intros r. rewrite zrange_In. unfold localColor. split.
        + intros H. split; [nia|]. f_equal. symmetry. apply (Z.div_unique _ _ _ (r - n * g)); lia.
        + intros [H E]. injection E as E. pose proof (Z.div_mod r n ltac:(lia)). pose proof (Z.mod_pos_bound r n ltac:(lia)). nia. }
    rewrite SR. apply map_id_range. intros r Hr. apply zrange_In in Hr. nia. }
  rewrite E, zrange_length. split; [lia|]. intros p Hp. unfold zrange. rewrite zseq_nth by lia. lia.
Qed.

(** The global-reduce communicator of the processes with local rank [p]: one process per group, in the order of the groups. *)
Theorem C35_reduce_comm : forall ngroup nprocs worldSize wm manager p, goodWorld ngroup nprocs worldSize wm manager -> 0 <= p < nprocs ->
  Z.of_nat (length (globalReduceComm nprocs worldSize manager p)) = ngroup /\
  forall g, 0 <= g < ngroup -> nth (Z.to_nat g) (globalReduceComm nprocs worldSize manager p) 0 = nth (Z.to_nat p) (localComm nprocs worldSize g) 0.
Proof.
  intros G n W wm m p HW Hp. pose proof HW as (HG & Hn & _). pose proof (goodWorld_size _ _ _ _ _ HW) as (S1 & S2 & S3 & _).
  assert (E : globalReduceComm n W m p = map (fun g => g * n + p) (zrange 0 G)).
  { unfold globalReduceComm, commSplit. unfold worldComm at 2. rewrite zrange_length. replace (Z.of_nat (Z.to_nat (W - 0))) with W by nia.
    assert (SR : splitRanks W (reduceColor n m) (reduceKey n) p = map (fun g => g * n + p) (zrange 0 G)).
    { apply splitRanks_spec.
      - apply map_sorted; [|apply zrange_sorted]. intros; nia.
      - intros x y _ _ H. unfold reduceKey. apply Z.div_le_mono; lia.
      - intros r. rewrite in_map_iff. split.
        + intros (g & <- & Hg). apply zrange_In in Hg. split; [nia|]. destruct (div_mod_form n g p ltac:(lia) Hp) as [_ EM]. unfold reduceColor.
          destruct m as [m|]; [|now rewrite EM]. destruct (Z.eqb_spec (g * n + p) m) as [EQ|_]; [|now rewrite EM]. destruct (S3 m eq_refl). nia.
        + intros [Hr E]. exists (r / n). pose proof (Z.div_mod r n ltac:(lia)) as DM.
          assert (EM : r mod n = p /\ r < G * n).
          { unfold reduceColor in E. destruct (S2 r Hr) as [L| ->]; [|rewrite Z.eqb_refl in E; discriminate]. split; auto.
            destruct m as [m|]; [|now injection E]. destruct (r =? m); [discriminate|now injection E]. }
          destruct EM as [EM L]. split; [nia|]. apply zrange_In. split; [apply Z.div_pos; lia|]. apply Z.div_lt_upper_bound; nia. }
    rewrite SR. apply map_id_range. intros r Hr. apply in_map_iff in Hr as (g & <- & Hg). apply zrange_In in Hg. nia. }
  rewrite E, map_length, zrange_length. split; [lia|]. intros g Hg. destruct (C35_local_comm _ _ _ _ _ g HW Hg) as [_ L]. rewrite (L p Hp).
  rewrite (nth_indep _ 0 (0 * n + p)) by (rewrite map_length, zrange_length; lia). rewrite (map_nth (fun g => g * n + p)). unfold zrange. rewrite zseq_nth by lia. f_equal. lia.
Qed.

(** Every worker has exactly one group and local rank, and getProcessGroupNumber returns the group. *)
Theorem C35_one_to_one : forall ngroup nprocs worldSize wm manager r, goodWorld ngroup nprocs worldSize wm manager ->
  0 <= r < worldSize -> manager <> Some r ->
  exists g p, 0 <= g < ngroup /\ 0 <= p < nprocs /\ nth (Z.to_nat p) (localComm nprocs worldSize g) 0 = r /\ processGroupNumber nprocs r = g /\
    forall g' p', 0 <= g' < ngroup -> 0 <= p' < nprocs -> nth (Z.to_nat p') (localComm nprocs worldSize g') 0 = r -> g' = g /\ p' = p.
Proof.
  intros G n W wm m r HW Hr NM. pose proof HW as (HG & Hn & _). pose proof (goodWorld_size _ _ _ _ _ HW) as (S1 & S2 & _).
  destruct (S2 r Hr) as [L|]; [|congruence]. pose proof (Z.div_mod r n ltac:(lia)) as DM. pose proof (Z.mod_pos_bound r n ltac:(lia)) as MB.
  assert (HG' : 0 <= r / n < G). { split; [apply Z.div_pos; lia|]. apply Z.div_lt_upper_bound; nia. }
  exists (r / n), (r mod n). destruct (C35_local_comm _ _ _ _ _ (r / n) HW HG') as [_ LC]. rewrite (LC _ MB). repeat split; try lia; auto.
  - destruct (C35_local_comm _ _ _ _ _ g' HW H) as [_ LC']. rewrite (LC' p' H0) in H1. destruct (div_mod_form n g' p' ltac:(lia) H0) as [<- _]. now rewrite H1.
  - destruct (C35_local_comm _ _ _ _ _ g' HW H) as [_ LC']. rewrite (LC' p' H0) in H1. destruct (div_mod_form n g' p' ltac:(lia) H0) as [_ <-]. now rewrite H1.
Qed.

(** The manager has the last world rank, takes part in no reduction, and follows the masters of the groups in the global
    communicator and the workers of a group in its third level communicator. *)
Theorem C35_manager : forall ngroup nprocs worldSize manager m, goodWorld ngroup nprocs worldSize true manager -> manager = Some m ->
  m = worldSize - 1 /\
  (forall p, ~ In m (globalReduceComm nprocs worldSize manager p)) /\
  (forall g, 0 <= g < ngroup -> ~ In m (localComm nprocs worldSize g)) /\
  Z.of_nat (length (globalComm ngroup nprocs manager)) = ngroup + 1 /\ nth (Z.to_nat ngroup) (globalComm ngroup nprocs manager) 0 = m /\
  forall g, 0 <= g < ngroup -> nth (Z.to_nat nprocs) (thirdLevelComm nprocs m g) 0 = m /\
    forall p, 0 <= p < nprocs -> nth (Z.to_nat p) (thirdLevelComm nprocs m g) 0 = nth (Z.to_nat p) (localComm nprocs worldSize g) 0.
Proof.
  intros G n W m0 m HW ->. pose proof HW as (HG & Hn & _). pose proof (goodWorld_size _ _ _ _ _ HW) as (S1 & S2 & S3 & _).
  destruct (S3 m eq_refl) as [Em EW]. split; [lia|]. split; [|split; [|split; [|split]]].
  - intros p Hi. unfold globalReduceComm, commSplit in Hi. apply in_map_iff in Hi as (r & E & Hr). unfold splitRanks in Hr.
    assert (IN : forall l acc, In r (fold_left (fun l r => insertByKey (reduceKey n) r l) l acc) -> In r l \/ In r acc).
    { induction l as [|x l IH]; intros acc H; auto. cbn [fold_left] in H. apply IH in H as [H|H]; [left; now right|].
      enough (r = x \/ In r acc) as [->|]; [left; now left|now right|]. clear -H. induction acc as [|y acc IH]; cbn in H; [destruct H; auto|].
      destruct (reduceKey n x <? reduceKey n y); [destruct H as [H|H]; [left; symmetry; exact H|now right]|]. destruct H as [->|H]; [right; now left|]. destruct (IH H); [now left|right; now right]. }
    apply IN in Hr as [Hr|[]]. apply filter_In in Hr as [Hr HC]. unfold worldComm in Hr. rewrite zrange_length in Hr. apply zrange_In in Hr. rewrite Z2Nat.id in Hr by nia.
    assert (r = m). { rewrite <- E. unfold worldComm, zrange. rewrite zseq_nth by lia. lia. } subst r.
    unfold hasColor, reduceColor in HC. rewrite Z.eqb_refl in HC. discriminate.
  - intros g Hg Hi. apply (In_nth _ _ 0) in Hi as (i & Hi & E). destruct (C35_local_comm _ _ _ _ _ g HW Hg) as [L LC].
    specialize (LC (Z.of_nat i) ltac:(lia)). rewrite Nat2Z.id, E in LC. nia.
  - unfold globalComm. rewrite app_length, map_length, zrange_length. cbn [length]. lia.
  - unfold globalComm. rewrite app_nth2; rewrite map_length, zrange_length; [|lia]. replace (Z.to_nat G - Z.to_nat (G - 0))%nat with 0%nat by lia. reflexivity.
  - intros g Hg. unfold thirdLevelComm. split.
    + rewrite app_nth2; rewrite map_length, zrange_length; [|lia]. replace (Z.to_nat n - Z.to_nat (n - 0))%nat with 0%nat by lia. reflexivity.
    + intros p Hp. rewrite app_nth1 by (rewrite map_length, zrange_length; lia). destruct (C35_local_comm _ _ _ _ _ g HW Hg) as [_ LC]. rewrite (LC p Hp).
      rewrite (nth_indep _ 0 (g * n + 0)) by (rewrite map_length, zrange_length; lia). rewrite (map_nth (fun p => g * n + p)). unfold zrange. rewrite zseq_nth by lia. f_equal. lia.
Qed.

(** Rank [g] of the global communicator is the process with local rank 0 of group [g]. *)
Theorem C35_masters : forall ngroup nprocs worldSize wm manager g, goodWorld ngroup nprocs worldSize wm manager -> 0 <= g < ngroup ->
  nth (Z.to_nat g) (globalComm ngroup nprocs manager) 0 = nth 0 (localComm nprocs worldSize g) 0.
Proof.
  intros G n W wm m g HW Hg. pose proof HW as (HG & Hn & _). destruct (C35_local_comm _ _ _ _ _ g HW Hg) as [_ L]. pose proof (L 0 ltac:(lia)) as L0. simpl in L0. rewrite L0.
  unfold globalComm. rewrite app_nth1 by (rewrite map_length, zrange_length; lia).
  rewrite (nth_indep _ 0 (0 * n)) by (rewrite map_length, zrange_length; lia). rewrite (map_nth (fun i => i * n)). unfold zrange. rewrite zseq_nth by lia. lia.
Qed.

(** ** C36 *)
Lemma zrange_S : forall b, 0 <= b -> zrange 0 (b + 1) = zrange 0 b ++ [b].
Proof. intros b Hb. rewrite zrange_snoc by lia. replace (b + 1 - 1) with b by lia. reflexivity. Qed.

Section Diag.
Context (G n : Z) (HG : 1 <= G) (Hn : 1 <= n).
Notation w := (fun k => (k mod G) * n + k).
Let st (k : Z) : list Z + list Z := if k <? n then inl (map w (zrange 0 k)) else inr (map w (zrange 0 n)).

Lemma diag_inner : forall d (j : nat), 0 <= d -> Z.of_nat j <= G ->
  fold_left (diagonalStep n G d) (zrange 0 (Z.of_nat j)) (st (d * G)) = st (d * G + Z.of_nat j).
Proof.
  intros d j Hd. induction j as [|j IH]; intros Hj. { cbn [fold_left]. simpl. now rewrite Z.add_0_r. }
  rewrite Nat2Z.inj_succ. unfold Z.succ. rewrite zrange_S, fold_left_app, IH by lia. cbn [fold_left]. rewrite Z.add_assoc. set (k := d * G + Z.of_nat j).
  assert (K0 : 0 <= k) by (unfold k; nia). unfold st, diagonalStep. destruct (Z.ltb_spec k n) as [L|L].
  - rewrite app_length, map_length, zrange_length. cbn [length].
    assert (EW : (n + 1) * Z.of_nat j + d * G = (k mod G) * n + k).
    { replace (k mod G) with (Z.of_nat j) by (apply (Z.mod_unique _ _ d); unfold k; lia). unfold k. lia. }
    rewrite EW. assert (EM : map w (zrange 0 k) ++ [k mod G * n + k] = map w (zrange 0 (k + 1))) by (rewrite zrange_S, map_app by lia; reflexivity).
    rewrite EM. replace (Z.of_nat (Z.to_nat (k - 0) + 1)) with (k + 1) by lia.
    destruct (Z.eqb_spec (k + 1) n) as [E|NE]; destruct (Z.ltb_spec (k + 1) n); try lia; auto. now rewrite E.
  - destruct (Z.ltb_spec (k + 1) n); [lia|auto].
Qed.

Lemma diagonal_list : getDiagonalRanks n G = map w (zrange 0 n).
Proof.
  unfold getDiagonalRanks.
  assert (H : forall D : nat, fold_left (fun acc diagonal => fold_left (diagonalStep n G diagonal) (zrange 0 G) acc) (zrange 0 (Z.of_nat D)) (inl []) = st (Z.of_nat D * G)).
  { induction D as [|D IH]. { unfold st. simpl Z.of_nat. rewrite Z.mul_0_l. destruct (Z.ltb_spec 0 n); [reflexivity|lia]. }
    rewrite Nat2Z.inj_succ. unfold Z.succ. rewrite zrange_S, fold_left_app, IH by lia. cbn [fold_left].
    replace (zrange 0 G) with (zrange 0 (Z.of_nat (Z.to_nat G))) by (f_equal; lia). rewrite diag_inner by lia. f_equal. lia. }
  specialize (H (Z.to_nat (n / G + 1))). pose proof (Z.div_pos n G ltac:(lia) ltac:(lia)). rewrite Z2Nat.id in H by lia. rewrite H. unfold st.
  pose proof (Z.div_mod n G ltac:(lia)). pose proof (Z.mod_pos_bound n G ltac:(lia)). destruct (Z.ltb_spec ((n / G + 1) * G) n); [nia|reflexivity].
Qed.
End Diag.

Lemma nth_map_zrange0 : forall (f : Z -> Z) n k, 0 <= k < n -> nth (Z.to_nat k) (map f (zrange 0 n)) 0 = f k.
Proof.
  intros f n k Hk. rewrite (nth_indep _ 0 (f 0)) by (rewrite map_length, zrange_length; lia). rewrite map_nth. unfold zrange. rewrite zseq_nth by lia. f_equal. lia.
Qed.

(** The output group has one process per local rank: its rank [k] is a worker with local rank [k], and it is the member of its
    global-reduce communicator that getOutputRankInGlobalReduceComm announces to the others. No process is there twice. *)
Theorem C36_diagonal : forall ngroup nprocs worldSize wm manager, goodWorld ngroup nprocs worldSize wm manager ->
  let ranks := getDiagonalRanks nprocs ngroup in
  Z.of_nat (length ranks) = nprocs /\ NoDup ranks /\
  forall k, 0 <= k < nprocs ->
    let g := outputRankInGlobalReduceComm ngroup k in
    0 <= g < ngroup /\
    nth (Z.to_nat k) ranks 0 = nth (Z.to_nat k) (localComm nprocs worldSize g) 0 /\
    nth (Z.to_nat k) ranks 0 = nth (Z.to_nat g) (globalReduceComm nprocs worldSize manager k) 0.
Proof.
  intros G n W wm m HW ranks. pose proof HW as (HG & Hn & _). unfold ranks. rewrite diagonal_list by lia. rewrite map_length, zrange_length. split; [lia|]. split.
  - apply NoDup_map_inj; [apply zrange_NoDup|]. intros x y Hx Hy E. apply zrange_In in Hx, Hy.
    destruct (div_mod_form n (x mod G) x ltac:(lia) Hx) as [_ Ex]. destruct (div_mod_form n (y mod G) y ltac:(lia) Hy) as [_ Ey]. rewrite <- Ex, <- Ey. now rewrite E.
  - intros k Hk. set (g := outputRankInGlobalReduceComm G k). assert (Gg : 0 <= g < G) by (unfold g, outputRankInGlobalReduceComm; apply Z.mod_pos_bound; lia). split; auto.
    rewrite nth_map_zrange0 by auto. destruct (C35_reduce_comm _ _ _ _ _ k HW Hk) as [_ RC]. rewrite (RC g Gg). destruct (C35_local_comm _ _ _ _ _ g HW Gg) as [_ LC]. rewrite (LC k Hk).
    split; reflexivity.
Qed.

(** Several file parts, if their number divides the number of processes per group: the communicator of part [c] consists of the
    next nprocs/parts ranks of the output group, and all its members compute [c] as the number of their part.
    Missing: other numbers of parts, see C36_file_parts_refuted. *)
Theorem C36_file_parts_partial : forall ngroup nprocs parts c, 1 <= ngroup -> 1 <= parts -> (parts | nprocs) -> 1 <= nprocs -> 0 <= c < parts ->
  Z.of_nat (length (outputComm nprocs ngroup parts c)) = nprocs / parts /\
  forall i, 0 <= i < nprocs / parts -> let k := c * (nprocs / parts) + i in
    0 <= k < nprocs /\
    nth (Z.to_nat i) (outputComm nprocs ngroup parts c) 0 = nth (Z.to_nat k) (getDiagonalRanks nprocs ngroup) 0 /\
    outputColor nprocs parts k = c /\ filePartNumber nprocs ngroup parts k = c.
Proof.
  intros G n parts c HG HP [q Hq] Hn Hc. assert (EQ : n / parts = q) by (rewrite Hq; apply Z.div_mul; lia). rewrite EQ. assert (Q1 : 1 <= q) by nia.
  assert (OC : outputComm n G parts c = map (fun i => nth (Z.to_nat (c * q + i)) (getDiagonalRanks n G) 0) (zrange 0 q)).
  { unfold outputComm. rewrite EQ. destruct (Z.eqb_spec parts 1) as [E1|N1].
    - assert (c = 0) by lia. subst c. assert (QN : q = n) by lia. rewrite QN. rewrite diagonal_list by lia. apply map_ext_in. intros i Hi. apply zrange_In in Hi.
      rewrite Z.mul_0_l, Z.add_0_l. rewrite nth_map_zrange0; auto.
    - unfold commSplit. assert (LD : Z.of_nat (length (getDiagonalRanks n G)) = n) by (rewrite diagonal_list, map_length, zrange_length by lia; lia). rewrite LD.
      assert (SR : splitRanks n (fun r => Some (r / q)) (fun r => r mod q) c = map (fun i => c * q + i) (zrange 0 q)).
      { apply splitRanks_spec.
        - apply map_sorted; [intros; lia|apply zrange_sorted].
        - intros x y Hx Hy L. apply in_map_iff in Hx as (i & <- & Hi). apply in_map_iff in Hy as (j & <- & Hj). apply zrange_In in Hi, Hj.
          destruct (div_mod_form q c i ltac:(lia) Hi) as [_ ->]. destruct (div_mod_form q c j ltac:(lia) Hj) as [_ ->]. lia.
        - intros r. rewrite in_map_iff. split.
          + intros (i & <- & Hi). apply zrange_In in Hi. destruct (div_mod_form q c i ltac:(lia) Hi) as [-> _]. split; auto. nia.
          + intros [Hr E]. injection E as E. exists (r mod q). pose proof (Z.div_mod r q ltac:(lia)). pose proof (Z.mod_pos_bound r q ltac:(lia)). split; [nia|]. apply zrange_In. lia. }
      rewrite SR, map_map. reflexivity. }
  assert (LEN : Z.of_nat (length (outputComm n G parts c)) = q) by (rewrite OC, map_length, zrange_length; lia).
  split; auto. intros i Hi k. assert (Hk : 0 <= k < n) by (unfold k; nia). split; auto.
  assert (COL : outputColor n parts k = c).
  { unfold outputColor. rewrite EQ. destruct (Z.eqb_spec parts 1); [lia|]. unfold k. apply (div_mod_form q c i); lia. }
  split; [rewrite OC; rewrite nth_map_zrange0 by auto; reflexivity|]. split; auto.
  unfold filePartNumber. rewrite COL, LEN. unfold k. apply (div_mod_form q c i); lia.
Qed.

(** Without divisibility, processes of one communicator compute different part numbers, neither of them below the number of
    parts: they open different files collectively. *)
Theorem C36_file_parts_refuted : exists ngroup nprocs parts k k', 1 <= ngroup /\ 1 <= parts <= nprocs /\ 0 <= k < nprocs /\ 0 <= k' < nprocs /\
  outputColor nprocs parts k = outputColor nprocs parts k' /\
  filePartNumber nprocs ngroup parts k <> filePartNumber nprocs ngroup parts k' /\
  ~ filePartNumber nprocs ngroup parts k < parts /\ ~ filePartNumber nprocs ngroup parts k' < parts.
Proof. exists 2, 11, 3, 9, 10. repeat split; try lia; vm_compute; congruence. Qed.

(** ** Examples: three groups of four processes and a manager *)
Example C35_ex : goodWorld 3 4 13 true (Some 12) /\ managerRankWorld 3 4 12 true = None /\
  localComm 4 13 1 = [4; 5; 6; 7] /\ localComm 4 13 3 = [12] /\ globalReduceComm 4 13 (Some 12) 2 = [2; 6; 10] /\
  globalComm 3 4 (Some 12) = [0; 4; 8; 12] /\ thirdLevelComm 4 12 1 = [4; 5; 6; 7; 12].
Proof. split; [split; [lia|split; [lia|reflexivity]]|]. repeat split; reflexivity. Qed.
Example C36_ex : goodWorld 3 4 12 false None /\ getDiagonalRanks 4 3 = [0; 5; 10; 3] /\
  outputComm 4 3 2 0 = [0; 5] /\ outputComm 4 3 2 1 = [10; 3] /\ map (filePartNumber 4 3 2) [0; 1; 2; 3] = [0; 0; 1; 1].
Proof. split; [split; [lia|split; [lia|reflexivity]]|]. repeat split; reflexivity. Qed.

Print Assumptions C35_local_comm.
Print Assumptions C35_reduce_comm.
Print Assumptions C35_one_to_one.
Print Assumptions C35_manager.
Print Assumptions C35_masters.
Print Assumptions C36_diagonal.
Print Assumptions C36_file_parts_partial.
Print Assumptions C36_file_parts_refuted.
