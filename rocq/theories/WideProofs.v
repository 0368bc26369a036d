(** Lemmas about the combination of several systems. *)
From Verif Require Import Base TensorModel Level1dModel LevelSetsModel LevelSetsProofs SubspaceModel CombiSchemeModel Hier1dModel Hier1dProofs HierMassProofs
  DofProofs SparseGridModel SparseGridProofs CombineModel SparseTransferProofs SparseGridProps ReduceModel ReduceProofs VoteProofs SubspaceReduceProofs
  CombiStepModel CombiStepProofs CombiInitProofs FileModel FileProps ExchangeModel WideModel.
From Coq Require Import QArith Qcanon Permutation.
Open Scope Z_scope.
Ltac Zify.zify_post_hook ::= idtac.

(** ** Lists *)
Lemma mapO_nth : forall {A B} (Q : nat -> A -> B -> Prop) (f : A -> option B) l,
  (forall k a, nth_error l k = Some a -> exists b, f a = Some b /\ Q k a b) ->
  exists bs, mapO f l = Some bs /\ length bs = length l /\ forall k a, nth_error l k = Some a -> exists b, nth_error bs k = Some b /\ f a = Some b /\ Q k a b.
Proof.
  intros A B Q f l. revert Q. induction l as [|a l IH]; intros Q H.
  - exists []. cbn. split; auto. split; auto. intros [|k] a E; discriminate.
  - destruct (H O a eq_refl) as (b & E & Hb). destruct (IH (fun k => Q (S k)) (fun k x Hk => H (S k) x Hk)) as (bs & Es & L & F).
    exists (b :: bs). cbn [mapO]. rewrite E, Es. split; auto. split; [cbn; lia|]. intros [|k] x Hx; cbn [nth_error] in *; [injection Hx as <-; eauto|now apply F].
Qed.

Lemma indexed_nth : forall {A} (l : list A) k, nth_error (indexed l) k = match nth_error l k with Some a => Some (k, a) | None => None end.
Proof.
  intros A l. unfold indexed. assert (H : forall l (a k : nat), nth_error (combine (seq a (length l)) l) k = match nth_error l k with Some x => Some ((a + k)%nat, x) | None => None (A := nat * A) end).
  { induction l0 as [|x l0 IH]; intros a k; [now destruct k|]. destruct k as [|k]; cbn [length seq combine nth_error]; [now rewrite Nat.add_0_r|]. rewrite IH. destruct (nth_error l0 k); auto. do 2 f_equal. lia. }
  intros k. exact (H l O k).
Qed.
Lemma indexed_length : forall {A} (l : list A), length (indexed l) = length l.
Proof. intros. unfold indexed. rewrite combine_length, seq_length. lia. Qed.

Lemma nth_error_map' : forall {A B} (f : A -> B) l k, nth_error (map f l) k = match nth_error l k with Some a => Some (f a) | None => None end.
Proof. intros A B f. induction l as [|x l IH]; intros [|k]; cbn; auto. Qed.

Lemma mapDsgs_nth : forall f gs r, nth_error (mapDsgs f gs) r = match nth_error gs r with Some g => Some (withDsg g (f r (gDsg g))) | None => None end.
Proof.
  intros f gs r. unfold mapDsgs. rewrite nth_error_map'. fold (indexed gs). rewrite indexed_nth. now destruct (nth_error gs r).
Qed.
Lemma mapDsgs_length : forall f gs, length (mapDsgs f gs) = length gs.
Proof. intros. unfold mapDsgs. rewrite map_length, combine_length, seq_length. lia. Qed.

Lemma nth_error_Forall2 : forall {A B} (Q : A -> B -> Prop) l l', length l' = length l ->
  (forall k a b, nth_error l k = Some a -> nth_error l' k = Some b -> Q a b) -> Forall2 Q l l'.
Proof.
  intros A B Q. induction l as [|a l IH]; intros [|b l'] L H; cbn in L; try discriminate; constructor; [apply (H O); reflexivity|].
  apply IH; [lia|]. intros k x y Hx Hy. apply (H (S k)); auto.
Qed.
Lemma groupDsg_nth : forall gs r g, nth_error gs r = Some g -> groupDsg gs r = gDsg g.
Proof. intros gs r g E. unfold groupDsg. now rewrite E. Qed.

(** ** MPI_Reduce *)
Lemma reduces_spec : forall root rounds bufs, Forall matched rounds -> (forall r, NoDup (flat_map (addrIn r) rounds)) ->
  exists bufs', reduces root rounds bufs = Some bufs' /\
    (forall t e, In t rounds -> In root (fst t) -> (e < length (snd t root))%nat ->
       bufs' root (nth e (snd t root) 0) = qsum (map (fun r' => bufs r' (nth e (snd t r') 0)) (fst t))) /\
    (forall k, ~ In k (flat_map (addrIn root) rounds) -> bufs' root k = bufs root k) /\
    (forall r k, r <> root -> bufs' r k = bufs r k).
Proof.
  intros root. induction rounds as [|t rounds IH]; intros bufs HM HN.
  - exists bufs. split; auto. split; [intros t e []|auto].
  - apply Forall_cons_iff in HM. destruct HM as [HM HMs].
    assert (N1 : forall r, NoDup (addrIn r t)) by (intros r; apply (NoDup_app_elim _ _ (HN r))).
    assert (N2 : forall r, NoDup (flat_map (addrIn r) rounds)) by (intros r; apply (NoDup_app_elim _ _ (HN r))).
    assert (D : forall r k, In k (addrIn r t) -> ~ In k (flat_map (addrIn r) rounds)) by (intros r; apply (NoDup_app_elim _ _ (HN r))).
    destruct (allreduce_spec t bufs HM N1) as (b1 & E1 & V1 & O1).
    set (b1' := fun r => if Nat.eqb r root then b1 r else bufs r).
    destruct (IH b1' HMs N2) as (b2 & E2 & V2 & O2 & K2).
    exists b2. destruct t as [m a]. cbn [reduces]. cbn [fst snd] in *. rewrite E1. split; auto. split; [|split].
    + assert (R1 : b1' root = b1 root) by (unfold b1'; now rewrite Nat.eqb_refl).
      intros t' e [<-|Ht] Hr He; cbn [fst snd] in *.
      * rewrite O2; [rewrite R1; now apply V1|]. apply D. unfold addrIn. cbn [fst snd]. rewrite (proj2 (memN_In root m) Hr). now apply nth_In.
      * rewrite V2 by auto. f_equal. apply map_ext_in. intros r' Hr'. unfold b1'. destruct (Nat.eqb_spec r' root) as [->|N]; auto. apply O1. intros X. apply (D root _ X).
        apply in_flat_map. exists t'. split; auto. unfold addrIn. rewrite (proj2 (memN_In root (fst t')) Hr'). apply nth_In. auto.
    + intros k Hk. cbn [flat_map] in Hk. rewrite in_app_iff in Hk. rewrite O2 by tauto. unfold b1'. rewrite Nat.eqb_refl. apply O1. tauto.
    + intros r k Hr. rewrite K2 by auto. unfold b1'. destruct (Nat.eqb_spec r root); [contradiction|auto].
Qed.

Lemma sparseGridReduceTo_spec : forall root R mc ds len, (root < R)%nat -> 0 < mc < 2 ^ 31 -> 0 <= len < 2 ^ 63 -> (forall r, (r < R)%nat -> dLen (ds r) = len) ->
  exists ds', sparseGridReduceTo root R mc ds = Some ds' /\
    (forall r, sameShape (ds r) (ds' r) /\ dKahan (ds' r) = dKahan (ds r)) /\
    (forall k, 0 <= k < len -> dData (ds' root) k = qsum (map (fun r' => dData (ds r') k) (seq 0 R))).
Proof.
  intros root R mc ds len Hroot HC HB HL. unfold sparseGridReduceTo.
  destruct (sparseGridCalls_spec (Z.to_nat len) len mc 0 HC ltac:(lia) ltac:(lia) ltac:(lia)) as (calls & last & E & C & _).
  set (calls' := calls ++ [last]) in *. clearbody calls'.
  set (cs := fun r => optCalls (sparseGridCalls (Z.to_nat (dLen (ds r))) (dLen (ds r)) mc 0)).
  assert (CS : forall r, In r (seq 0 R) -> cs r = map rangeOf calls').
  { intros r Hr. apply in_seq in Hr. unfold cs. rewrite (HL r) by lia. rewrite E. reflexivity. }
  destruct (roundsOf_spec (seq 0 R) cs) as (rs & E1 & F1 & C1 & O1 & D1).
  { intros r r' Hr Hr'. now rewrite !CS. }
  fold cs. rewrite E1. destruct (reduces_spec root rs (fun r => dData (ds r))) as (bufs & EB & VB & OB & _).
  { apply Forall_forall. intros t Ht r r' Hr Hr'. rewrite (F1 t Ht) in Hr, Hr'. apply (In_nth _ _ t) in Ht. destruct Ht as (k & Hk & Ek).
    assert (G : forall q, In q (seq 0 R) -> snd t q = nth k (map rangeOf calls') (snd t q)).
    { intros q Hq. rewrite <- (CS q Hq), <- (C1 q Hq), (map_nth (fun t => snd t q)). now rewrite Ek. }
    assert (LK : (k < length (map rangeOf calls'))%nat) by (rewrite <- (CS r Hr), <- (C1 r Hr), map_length; auto).
    rewrite (G r Hr), (G r' Hr'). f_equal. now apply nth_indep. }
  { intros r. destruct (in_dec Nat.eq_dec r (seq 0 R)) as [Hr|Hr]; [|rewrite O1 by auto; constructor]. rewrite D1, CS by auto.
    rewrite <- flat_map_concat_map, C. apply zrange_NoDup. }
  rewrite EB. eexists. split; [reflexivity|]. split; [intros r; split; [repeat split|reflexivity]|]. cbn [withData dData].
  intros k Hk. assert (Hk' : In k (flat_map rangeOf calls')) by (rewrite C; now apply zrange_In).
  apply in_flat_map in Hk'. destruct Hk' as (c & Hc & Hk'). apply (In_nth _ _ c) in Hc. destruct Hc as (q & Hq & Eq).
  assert (Hr' : In root (seq 0 R)) by (apply in_seq; lia).
  assert (LQ : (q < length rs)%nat) by (rewrite <- (map_length (fun t => snd t root)), (C1 root Hr'), (CS root Hr'), map_length; auto).
  set (t := nth q rs ([], fun _ => [])). assert (Ht : In t rs) by now apply nth_In.
  assert (ST : forall x, In x (seq 0 R) -> snd t x = rangeOf c).
  { intros x Hx. unfold t. rewrite <- (map_nth (fun t => snd t x)), (C1 x Hx), (CS x Hx). rewrite (nth_indep _ _ (rangeOf c)) by now rewrite map_length.
    rewrite map_nth. now rewrite Eq. }
  apply (In_nth _ _ 0) in Hk'. destruct Hk' as (e & He & Ee).
  pose proof (VB t e Ht) as X. rewrite (F1 t Ht), (ST root Hr'), Ee in X. rewrite X by auto. f_equal. apply map_ext_in.
  intros r' Hx. now rewrite (ST r' Hx), Ee.
Qed.

(** ** Copying between sparse grids *)
Lemma memZ_In : forall x l, memZ x l = true <-> In x l.
Proof. intros x l. unfold memZ. rewrite existsb_exists. split; [intros (y & Hy & E); apply Z.eqb_eq in E; now subst|intros H; exists x; split; auto; apply Z.eqb_refl]. Qed.

Section Proc.
Variables (dim : nat) (rest : list (list Z)).
Let levels := repeat 1 dim :: rest.
Hypothesis HL : sortedLevels dim levels.
Hypothesis HP : Forall (Forall (Z.le 1)) levels.
Let n := Z.of_nat (length levels).
Let lvl (i : Z) := nth (Z.to_nat i) levels [].

(** Ready with all subspaces and the sizes [s]. *)
Definition full (s : list Z) (d : DSG) : Prop := ready levels d /\ dWith d = zrange 0 n /\ dSizes d = s.
Definition offS (s : list Z) (i : Z) : Z := before s (zrange 0 n) i.

Lemma full_off : forall s d i, full s d -> off d i = offS s i.
Proof. intros s d i (_ & W & S). unfold off, offS. now rewrite W, S. Qed.
Lemma full_size : forall s d i, full s d -> dataSize d i = nth (Z.to_nat i) s 0.
Proof. intros s d i (_ & _ & S). unfold dataSize. now rewrite S. Qed.
Lemma full_len : forall s d, full s d -> dLen d = zsum s /\ length s = length levels /\ 0 <= zsum s < 2 ^ 32.
Proof.
  intros s d ((I & LD & _ & LL & _) & W & S). destruct I as (L & F & _). destruct LD as [_ LD]. rewrite S in L. rewrite W, S in LD. unfold n in LD. rewrite <- L, accumulated_all in LD.
  split; auto. split; auto. rewrite LD in LL. rewrite S in F. split; auto. clear - F. induction F as [|x l H F IH]; [apply Z.le_refl|]. change (zsum (x :: l)) with (x + zsum l). lia.
Qed.
Lemma full_nonneg : forall s d i, full s d -> 0 <= nth (Z.to_nat i) s 0.
Proof. intros s d i F. rewrite <- (full_size s d i F). destruct F as ((I & _) & _). apply (dataSize_range _ _ i I). Qed.
Lemma full_ptr : forall s d i, full s d -> 0 <= i < n -> ptrOf (dPtr d) i = offS s i /\ 0 <= offS s i /\ offS s i + nth (Z.to_nat i) s 0 <= zsum s.
Proof.
  intros s d i F Hi. rewrite <- (full_off s d i F). pose proof F as (R & W & S). destruct (ready_ptr levels d R i Hi) as (P & _ & P0). split; auto. split; auto.
  rewrite <- (full_size s d i F). destruct (full_len s d F) as (<- & _). apply (off_bound levels); auto. rewrite W. now apply zrange_In.
Qed.
Lemma full_disjoint : forall s d i j, full s d -> 0 <= i < n -> i < j -> offS s i + nth (Z.to_nat i) s 0 <= offS s j.
Proof.
  intros s d i j F Hi Hj. rewrite <- !(full_off s d) by auto. rewrite <- (full_size s d i F). pose proof F as (R & W & _). apply (off_disjoint levels d R i j); [lia|]. rewrite W. now apply zrange_In.
Qed.
Lemma full_data : forall s d a, full s d -> full s (withData d a).
Proof. intros s d a (R & W & S). split; [|split; auto]. apply (ready_same levels d); auto; [repeat split|]. intros k Hk. cbn [withData dKahan]. now apply R. Qed.
Lemma full_alloc : forall s d i, full s d -> 0 <= i < n -> allocatedSize d i = nth (Z.to_nat i) s 0.
Proof. intros s d i F Hi. unfold allocatedSize. rewrite (full_size s d i F). destruct F as (_ & W & _). rewrite W. rewrite (proj2 (memZ_In i _)); auto. now apply zrange_In. Qed.

Lemma copy_spec : forall s t o d, full s o -> full t d -> full t (copyDataFrom o d) /\
  forall i j, 0 <= i < n -> 0 <= j < nth (Z.to_nat i) t 0 ->
    dData (copyDataFrom o d) (offS t i + j) = if j <? nth (Z.to_nat i) s 0 then dData o (offS s i + j) else dData d (offS t i + j).
Proof.
  intros s t o d FO FD. split; [now apply full_data|]. unfold copyDataFrom. cbn [withData dData].
  assert (NS : numSubspaces d = n) by (unfold numSubspaces; destruct FD as ((I & _) & _); destruct I as (-> & _); reflexivity). rewrite NS.
  assert (H : forall l a i j, (forall x, In x l -> 0 <= x < n) -> 0 <= i < n -> 0 <= j < nth (Z.to_nat i) t 0 ->
    fold_left (copySubspace o d) l a (offS t i + j) = if memZ i l && (j <? nth (Z.to_nat i) s 0) then dData o (offS s i + j) else a (offS t i + j)).
  { induction l as [|x l IH]; intros a i j Hl Hi Hj; [reflexivity|]. cbn [fold_left]. rewrite IH by (auto; intros y Hy; apply Hl; now right).
    change (memZ i (x :: l)) with ((i =? x) || memZ i l). pose proof (Hl x (or_introl eq_refl)) as Hx.
    assert (CS : copySubspace o d a x (offS t i + j) = if (i =? x) && (j <? nth (Z.to_nat i) s 0) then dData o (offS s i + j) else a (offS t i + j)).
    { unfold copySubspace. rewrite (full_alloc s o x), (full_alloc t d x) by auto. destruct (full_ptr s o x FO Hx) as (-> & _). destruct (full_ptr t d x FD Hx) as (-> & _).
      pose proof (full_nonneg s o x FO). pose proof (full_nonneg t d x FD).
      destruct (Z.eqb_spec i x) as [->|NX].
      - cbn [andb]. replace (offS s x + (offS t x + j - offS t x)) with (offS s x + j) by lia.
        destruct (Z.ltb_spec j (nth (Z.to_nat x) s 0)); destruct (Z.leb_spec (offS t x) (offS t x + j)); destruct (Z.ltb_spec (offS t x + j) (offS t x + Z.min (nth (Z.to_nat x) s 0) (nth (Z.to_nat x) t 0))); cbn [andb]; auto; lia.
      - cbn [andb]. destruct (Z.leb_spec (offS t x) (offS t i + j)) as [A|A]; auto. destruct (Z.ltb_spec (offS t i + j) (offS t x + Z.min (nth (Z.to_nat x) s 0) (nth (Z.to_nat x) t 0))) as [B|B]; auto.
        exfalso. destruct (Z_lt_le_dec i x) as [X|X].
        + pose proof (full_disjoint t d i x FD Hi X). lia.
        + pose proof (full_disjoint t d x i FD Hx ltac:(lia)). lia. }
    rewrite CS. destruct (i =? x), (memZ i l), (j <? nth (Z.to_nat i) s 0); reflexivity. }
  intros i j Hi Hj. rewrite H; auto; [|intros x Hx; now apply zrange_In].
  rewrite (proj2 (memZ_In i _)) by (now apply zrange_In). reflexivity.
Qed.

Lemma full_dsgOk : forall s d, full s d -> zsum s < 2 ^ 31 -> dsgOk dim rest d.
Proof. intros s d (R & W & S) T. apply (ready_dsgOk dim rest); auto. now rewrite S. Qed.

(** ** One process *)
Variable cnt : list Z -> Z.
Hypothesis Hcnt : forall q, 0 <= cnt q < 2 ^ 32.

Lemma zeroed_full : forall esz d, dsgOk dim rest d -> full (dSizes d) (zeroDsgData esz d) /\ forall k, dData (zeroDsgData esz d) k = 0%Qc.
Proof. intros esz d D. destruct (zero_spec dim rest cnt Hcnt esz d D) as (R & S & W & Z0 & _). split; auto. split; auto. Qed.

(** Between two combinations; [E] are the sizes of the extra sparse grid. *)
Definition procInv (out : nat) (E : list Z) (pr : Proc) : Prop :=
  Forall (groupOk dim rest cnt) (pGroups pr) /\ sameSizes (pGroups pr) /\ (out < length (pGroups pr))%nat /\
  dsgOk dim rest (pExtra pr) /\ dSizes (pExtra pr) = E /\
  (forall g i, In g (pGroups pr) -> 0 <= i < n -> nth (Z.to_nat i) E 0 = 0 \/ nth (Z.to_nat i) E 0 = dataSize (gDsg g) i) /\
  (forall g, In g (pGroups pr) -> zsum (dSizes (gDsg g)) < 2 ^ 31 - 1).

(** During a combination: [X i j] is the value of point [j] of subspace [i] in the combined sparse grid of the output group. *)
Definition procMid (out : nat) (E : list Z) (gs0 : list Group) (pr : Proc) (X : Z -> Z -> Qc) : Prop :=
  length (pGroups pr) = length gs0 /\
  (forall r g0 g, nth_error gs0 r = Some g0 -> nth_error (pGroups pr) r = Some g -> gTasks g = gTasks g0 /\ gComms g = gComms g0 /\ full (dSizes (gDsg g0)) (gDsg g)) /\
  full E (pExtra pr) /\
  (forall g i j, nth_error (pGroups pr) out = Some g -> 0 <= i < n -> 0 <= j < dataSize (gDsg g) i -> dData (gDsg g) (offS (dSizes (gDsg g)) i + j) = X i j) /\
  (forall i j, 0 <= i < n -> 0 <= j < nth (Z.to_nat i) E 0 -> dData (pExtra pr) (offS E i + j) = X i j).

Lemma localReduce_spec : forall esz mc out E pr, 0 < mc < 2 ^ 31 -> procInv out E pr ->
  exists pr', localReduce esz mc out levels pr = Some pr' /\ procMid out E (pGroups pr) pr' (fun i j => weightedSum (allTasks (pGroups pr)) (lvl i) j).
Proof.
  intros esz mc out E pr HMC (G & SS & HO & DE & SE & EE & TT). unfold localReduce.
  set (gs := pGroups pr) in *. set (pz := zeroProc esz pr).
  assert (LZ : length (pGroups pz) = length gs) by apply mapDsgs_length.
  destruct (mapO_nth (fun r g d => forall g0, nth_error gs r = Some g0 -> full (dSizes (gDsg g0)) d /\
      (forall i j, 0 <= i < n -> 0 <= j < dataSize d i -> dData d (off d i + j) = weightedSum (gTasks g0) (lvl i) j))
      (fun g => addAll true levels (gTasks g) (gDsg g)) (pGroups pz)) as (ds & ED & LD & FD).
  { intros r g Eg. unfold pz, zeroProc in Eg. cbn [pGroups] in Eg. rewrite mapDsgs_nth in Eg. fold gs in Eg. destruct (nth_error gs r) as [g0|] eqn:E0; [|discriminate]. injection Eg as <-. cbn [withDsg gTasks gDsg].
    rewrite Forall_forall in G. destruct (G g0 (nth_error_In _ _ E0)) as (T & D & S). destruct (zero_spec dim rest cnt Hcnt esz (gDsg g0) D) as (R & ES & EW & EZ & EL).
    destruct (addAll_local dim rest HL HP cnt true (gTasks g0) (zeroDsgData esz (gDsg g0)) R EZ T) as (d' & Ea & Sh & K & V).
    - now apply (sizesOk_sizes dim rest cnt _ (gDsg g0)).
    - intros _ i Hi. rewrite EW. now apply zrange_In.
    - exists d'. split; [exact Ea|]. intros g0' E0'. injection E0' as <-. pose proof Sh as (S1 & S2 & _ & S4 & _). split.
      + split; [now apply (ready_same levels _ d' R)|]. split; [rewrite S2; exact EW|]. rewrite S1. exact ES.
      + intros i j Hi Hj. unfold off, dataSize in *. rewrite S1, S2 in *. apply V; auto. rewrite EW. now apply zrange_In. }
  cbv zeta. rewrite ED.
  assert (DS : forall r g0, nth_error gs r = Some g0 -> full (dSizes (gDsg g0)) (dsgAt ds r) /\
     (forall i j, 0 <= i < n -> 0 <= j < dataSize (dsgAt ds r) i -> dData (dsgAt ds r) (off (dsgAt ds r) i + j) = weightedSum (gTasks g0) (lvl i) j)).
  { intros r g0 E0. assert (EZ : nth_error (pGroups pz) r = Some (withDsg g0 (zeroDsgData esz (gDsg g0)))) by (unfold pz, zeroProc; cbn [pGroups]; rewrite mapDsgs_nth; fold gs; now rewrite E0).
    destruct (FD r _ EZ) as (d & Ed & _ & Q). unfold dsgAt. rewrite (nth_error_nth ds r _ Ed). now apply Q. }
  destruct (nth_error_lt gs out HO) as (go & Ego).
  assert (S0 : forall r g0, nth_error gs r = Some g0 -> dSizes (gDsg g0) = dSizes (gDsg go)) by (intros r g0 E0; now apply (SS r out)).
  set (s := dSizes (gDsg go)) in *.
  destruct (DS out go Ego) as [FO _]. destruct (full_len _ _ FO) as (_ & _ & TL). fold s in TL.
  assert (TS : zsum s < 2 ^ 31 - 1) by (apply TT; now apply nth_error_In in Ego).
  destruct (sparseGridReduceTo_spec out (length gs) mc (dsgAt ds) (zsum s) HO HMC ltac:(lia)) as (ds' & ER & SH & VR).
  { intros r Hr. destruct (nth_error_lt gs r Hr) as (g0 & E0). destruct (DS r g0 E0) as [F _]. destruct (full_len _ _ F) as (-> & _). now rewrite (S0 r g0 E0). }
  rewrite LZ, ER. eexists. split; [reflexivity|].
  assert (FD' : forall r g0, nth_error gs r = Some g0 -> full s (ds' r)).
  { intros r g0 E0. destruct (DS r g0 E0) as [(R & W & S) _]. destruct (SH r) as [Sh EK]. pose proof Sh as (S1 & S2 & _). split; [|split; [congruence|]].
    - apply (ready_same levels (dsgAt ds r)); auto. intros k Hk. rewrite EK. now apply R.
    - rewrite S1, S. now apply (S0 r). }
  assert (VO : forall i j, 0 <= i < n -> 0 <= j < nth (Z.to_nat i) s 0 -> dData (ds' out) (offS s i + j) = weightedSum (allTasks gs) (lvl i) j).
  { intros i j Hi Hj. destruct (full_ptr s _ i (FD' out go Ego) Hi) as (_ & P0 & P1). rewrite VR by lia. unfold weightedSum. rewrite <- sum_groups. apply qsum_ext. intros r Hr. apply in_seq in Hr.
    destruct (nth_error_lt gs r ltac:(lia)) as (g0 & E0). destruct (DS r g0 E0) as [F V]. rewrite (S0 r g0 E0) in F. rewrite <- (full_off s _ i F). rewrite V; auto; [unfold tasksAt; now rewrite E0|].
    now rewrite (full_size s _ i F). }
  destruct (zeroed_full esz (pExtra pr) DE) as [FE _]. rewrite SE in FE.
  destruct (copy_spec s E (ds' out) (zeroDsgData esz (pExtra pr)) (FD' out go Ego) FE) as [FC VC].
  split; [cbn [pGroups]; rewrite mapDsgs_length; exact LZ|]. cbn [pGroups pExtra]. split; [|split; [exact FC|split]].
  - intros r g0 g E0 E1. rewrite mapDsgs_nth in E1. unfold pz, zeroProc in E1. cbn [pGroups] in E1. rewrite mapDsgs_nth in E1. fold gs in E1. rewrite E0 in E1. injection E1 as <-. cbn. split; auto. split; auto.
    rewrite (S0 r g0 E0). now apply (FD' r g0).
  - intros g i j E1 Hi Hj. rewrite mapDsgs_nth in E1. unfold pz, zeroProc in E1. cbn [pGroups] in E1. rewrite mapDsgs_nth in E1. fold gs in E1. rewrite Ego in E1. injection E1 as <-. cbn [withDsg gDsg] in *.
    pose proof (FD' out go Ego) as F. rewrite (full_size s _ i F) in Hj. destruct F as (_ & _ & ->). now apply VO.
  - intros i j Hi Hj. change (pExtra pz) with (zeroDsgData esz (pExtra pr)). rewrite VC by auto.
    destruct (EE go i (nth_error_In _ _ Ego) Hi) as [Z0|Z0]; [lia|]. unfold dataSize in Z0. fold s in Z0.
    destruct (Z.ltb_spec j (nth (Z.to_nat i) s 0)); [|lia]. apply VO; auto. lia.
Qed.

(** One read: the file holds [vals] for this process. *)
Definition readProc (out : nat) (vals : list Qc) (pr : Proc) : Proc :=
  let e := withRaw vals (pExtra pr) in
  {| pGroups := mapDsgs (fun r d => if Nat.eqb r out then copyDataFrom e d else d) (pGroups pr); pExtra := e |}.

Lemma rawValues_length : forall E d, full E d -> length (rawValues d) = Z.to_nat (zsum E).
Proof. intros E d F. unfold rawValues. rewrite map_length, zrange_length. destruct (full_len E d F) as (-> & _). lia. Qed.
Lemma rawValues_nth : forall E d k, full E d -> 0 <= k < zsum E -> nth (Z.to_nat k) (rawValues d) 0%Qc = dData d k.
Proof.
  intros E d k F Hk. destruct (full_len E d F) as (L & _). unfold rawValues. rewrite (nth_indep _ 0%Qc (dData d 0)) by (rewrite map_length, zrange_length; lia). rewrite map_nth. f_equal.
  unfold zrange. rewrite zseq_nth by lia. lia.
Qed.

Lemma readProc_mid : forall out E gs0 pr X vals, procMid out E gs0 pr X -> (out < length gs0)%nat ->
  (forall g0 i, nth_error gs0 out = Some g0 -> 0 <= i < n -> nth (Z.to_nat i) E 0 = 0 \/ nth (Z.to_nat i) E 0 = dataSize (gDsg g0) i) ->
  length vals = Z.to_nat (zsum E) ->
  procMid out E gs0 (readProc out (map2 Qcplus vals (rawValues (pExtra pr))) pr)
    (fun i j => if nth (Z.to_nat i) E 0 =? 0 then X i j else (nth (Z.to_nat (offS E i + j)) vals 0 + X i j)%Qc).
Proof.
  intros out E gs0 pr X vals (L & F & FE & VO & VE) HO EE LV. unfold readProc. set (new := map2 Qcplus vals (rawValues (pExtra pr))). set (e := withRaw new (pExtra pr)).
  assert (FE' : full E e) by now apply full_data. destruct (full_len E _ FE) as (LE & _ & TE).
  assert (DE : forall k, 0 <= k < zsum E -> dData e k = (nth (Z.to_nat k) vals 0 + dData (pExtra pr) k)%Qc).
  { intros k Hk. unfold e, withRaw. cbn [withData dData]. rewrite LE. destruct (Z.leb_spec 0 k); [|lia]. destruct (Z.ltb_spec k (zsum E)); [|lia]. cbn [andb]. unfold new.
    rewrite (map2_nth _ _ _ _ vals _ _ 0%Qc 0%Qc 0%Qc) by (rewrite ?LV, ?(rawValues_length E) by auto; lia). now rewrite (rawValues_nth E) by auto. }
  assert (DX : forall i j, 0 <= i < n -> 0 <= j < nth (Z.to_nat i) E 0 -> dData e (offS E i + j) = (nth (Z.to_nat (offS E i + j)) vals 0 + X i j)%Qc).
  { intros i j Hi Hj. destruct (full_ptr E _ i FE Hi) as (_ & P0 & P1). rewrite DE by lia. now rewrite VE. }
  split; [cbn [pGroups]; now rewrite mapDsgs_length|]. cbn [pGroups pExtra]. split; [|split; [exact FE'|split]].
  - intros r g0 g E0 E1. rewrite mapDsgs_nth in E1. destruct (nth_error (pGroups pr) r) as [g1|] eqn:Eg1; [|discriminate]. injection E1 as <-. cbn [withDsg gTasks gComms gDsg].
    destruct (F r g0 g1 E0 Eg1) as (A & B & C). split; auto. split; auto. destruct (Nat.eqb_spec r out) as [X0|N]; [exact (proj1 (copy_spec E _ e _ FE' C))|exact C].
  - intros g i j E1 Hi Hj. rewrite mapDsgs_nth in E1. destruct (nth_error (pGroups pr) out) as [g1|] eqn:Eg1; [|discriminate]. injection E1 as <-. cbn [withDsg gDsg] in *. rewrite Nat.eqb_refl in *.
    destruct (nth_error_lt gs0 out HO) as (g0 & E0). destruct (F out g0 g1 E0 Eg1) as (A & B & C). destruct (copy_spec E _ e _ FE' C) as [FC VC].
    rewrite (full_size _ _ i FC) in Hj. pose proof FC as (_ & _ & SC). rewrite SC. rewrite VC by auto.
    pose proof C as (_ & _ & S1). pose proof (EE g0 i E0 Hi) as EC. unfold dataSize in EC.
    destruct (Z.eqb_spec (nth (Z.to_nat i) E 0) 0) as [Z0|Z0].
    + destruct (Z.ltb_spec j (nth (Z.to_nat i) E 0)); [lia|]. rewrite <- S1. apply VO; auto. now rewrite (full_size _ _ i C).
    + destruct EC as [EC|EC]; [lia|]. destruct (Z.ltb_spec j (nth (Z.to_nat i) E 0)); [|lia]. apply DX; auto. lia.
  - intros i j Hi Hj. rewrite DX by auto. destruct (Z.eqb_spec (nth (Z.to_nat i) E 0) 0); [lia|auto].
Qed.

(** The end: every task gets the values [W] that [X] has for its subspaces. *)
Lemma finishProc_spec : forall out E pr0 pr X W, procInv out E pr0 -> procMid out E (pGroups pr0) pr X ->
  (forall g c i j, In g (pGroups pr0) -> In c (gTasks g) -> 0 <= i < n -> containsL c (lvl i) -> 0 <= j < cnt (lvl i) -> X i j = W (lvl i) j) ->
  exists pr', finishProc out levels pr = Some pr' /\ procInv out E pr' /\
    Forall2 (fun g g' => stepped W (fun l => In l levels) g g') (pGroups pr0) (pGroups pr').
Proof.
  intros out E pr0 pr X W (G & SS & HO & DE & SE & EE & TT) (L & F & FE & VO & VE) HX. unfold finishProc, broadcastOut.
  set (gs0 := pGroups pr0) in *. set (gs := pGroups pr) in *.
  destruct (nth_error_lt gs0 out HO) as (go0 & Ego0). destruct (nth_error_lt gs out ltac:(lia)) as (go & Ego). rewrite (groupDsg_nth gs out go Ego). set (d0 := gDsg go) in *.
  set (s := dSizes (gDsg go0)). destruct (F out go0 go Ego0 Ego) as (_ & _ & F0). fold s d0 in F0. destruct (full_len s d0 F0) as (L0 & LS & TL).
  assert (TS : zsum s < 2 ^ 31 - 1) by (apply TT; now apply nth_error_In in Ego0).
  assert (FG : forall r g, nth_error gs r = Some g -> exists g0, nth_error gs0 r = Some g0 /\ gTasks g = gTasks g0 /\ gComms g = gComms g0 /\ full s (gDsg g) /\ dSizes (gDsg g0) = s).
  { intros r g Eg. destruct (nth_error_lt gs0 r) as (g0 & E0); [rewrite <- L; apply nth_error_Some; congruence|]. exists g0. split; auto. destruct (F r g0 g E0 Eg) as (A & B & C).
    assert (Sr : dSizes (gDsg g0) = s) by (now apply (SS r out)). rewrite Sr in C. auto. }
  assert (C1 : forallb (fun g => dLen (gDsg g) =? dLen d0) gs = true).
  { apply forallb_forall. intros g Hg. apply In_nth_error in Hg. destruct Hg as (r & Eg). destruct (FG r g Eg) as (g0 & _ & _ & _ & C & _). destruct (full_len s _ C) as (-> & _). apply Z.eqb_eq. auto. }
  rewrite C1. destruct (Z.ltb_spec (dLen d0) (2 ^ 31 - 1)) as [_|X0]; [|lia]. cbn [andb].
  set (gb := mapDsgs _ gs).
  assert (GB : forall r g, nth_error gb r = Some g -> exists g0, nth_error gs0 r = Some g0 /\ gTasks g = gTasks g0 /\ gComms g = gComms g0 /\ full s (gDsg g) /\ dSizes (gDsg g0) = s /\
     forall i j, 0 <= i < n -> 0 <= j < nth (Z.to_nat i) s 0 -> dData (gDsg g) (offS s i + j) = X i j).
  { intros r g Eg. unfold gb in Eg. rewrite mapDsgs_nth in Eg. destruct (nth_error gs r) as [g1|] eqn:Eg1; [|discriminate]. injection Eg as <-. destruct (FG r g1 Eg1) as (g0 & E0 & A & B & C & D).
    exists g0. cbn [withDsg gTasks gComms gDsg]. split; auto. split; auto. split; auto.
    assert (VX : forall i j, 0 <= i < n -> 0 <= j < nth (Z.to_nat i) s 0 -> dData d0 (offS s i + j) = X i j).
    { intros i j Hi Hj. destruct F0 as (R0 & W0 & S0). rewrite <- S0. apply VO; auto. unfold dataSize. fold d0. now rewrite S0. }
    destruct (Nat.eqb_spec r out) as [->|N].
    - split; [exact C|]. split; [exact D|]. assert (g1 = go) by congruence. subst g1. exact VX.
    - split; [now apply full_data|]. split; [exact D|]. intros i j Hi Hj. cbn [withData dData]. destruct (full_len s _ C) as (-> & _). destruct (full_ptr s d0 i F0 Hi) as (_ & P0 & P1).
      destruct (Z.leb_spec 0 (offS s i + j)); [|lia]. destruct (Z.ltb_spec (offS s i + j) (zsum s)); [|lia]. cbn [andb]. now apply VX. }
  assert (LB : length gb = length gs0) by (unfold gb; rewrite mapDsgs_length; exact L).
  destruct (mapO_nth (fun r g g' => forall g0, nth_error gs0 r = Some g0 -> stepped W (fun l => In l levels) g0 g' /\ groupOk dim rest cnt g' /\ dSizes (gDsg g') = s)
     (fun g => distribute true levels (gDsg g) g) gb) as (gs' & E' & L' & F').
  { intros r g Eg. destruct (GB r g Eg) as (g0 & E0 & A & B & C & D & V). rewrite Forall_forall in G. destruct (G g0 (nth_error_In _ _ E0)) as (T & DK & S).
    pose proof C as (R & WW & SZ).
    assert (SO : sizesOk dim rest cnt (gTasks g) (gDsg g)) by (rewrite A; apply (sizesOk_sizes dim rest cnt _ (gDsg g0)); auto; congruence).
    destruct (distribute_spec dim rest HL cnt Hcnt true (gDsg g) g W R) as (ts & E3 & F3).
    - now rewrite A.
    - exact SO.
    - intros _ i Hi. rewrite WW. now apply zrange_In.
    - intros i j c Hi Hw Hj Hc Hl. rewrite (full_off s _ i C). rewrite (full_size s _ i C) in Hj. rewrite V by auto. apply (HX g0 c i j); auto; [now apply nth_error_In in E0|now rewrite <- A|].
      fold lvl. rewrite <- (full_size s _ i C) in Hj. rewrite (SO c i Hc Hi Hl) in Hj. exact Hj.
    - eexists. split; [exact E3|]. intros g0' E0'. rewrite E0 in E0'. injection E0' as <-.
      assert (F4 : Forall2 (updated W (fun l => In l levels)) (gTasks g0) ts).
      { rewrite <- A. eapply Forall2_imp2; [|exact F3]. intros c c' U. apply (updated_ext _ _ _ _ _) with (2 := U). intros l _ _. cbv beta. split; [tauto|].
        intros Hl. split; auto. rewrite WW. apply zrange_In. now apply position_In. }
      split; [split; [exact F4|]; cbn [gDsg gComms]; split; [congruence|exact B]|]. split; [split; [|split]; cbn [gTasks gDsg]|exact SZ].
      + now apply (tasksOk_updated dim cnt _ _ _ _ T F4).
      + apply (full_dsgOk s); auto. lia.
      + apply (sizesOk_updated dim rest cnt _ _ _ _ (gDsg g)) with (2 := F4). now rewrite <- A. }
  rewrite E'. eexists. split; [reflexivity|]. cbn [pGroups pExtra].
  assert (FN : forall r g0 g', nth_error gs0 r = Some g0 -> nth_error gs' r = Some g' -> stepped W (fun l => In l levels) g0 g' /\ groupOk dim rest cnt g' /\ dSizes (gDsg g') = s).
  { intros r g0 g' E0 E1. destruct (nth_error_lt gb r) as (g & Eg); [rewrite LB; apply nth_error_Some; congruence|]. destruct (F' r g Eg) as (g'' & E2 & _ & Q). rewrite E1 in E2. injection E2 as <-. now apply Q. }
  assert (FL : forall r g', nth_error gs' r = Some g' -> exists g0, nth_error gs0 r = Some g0).
  { intros r g' E1. apply nth_error_lt. rewrite <- LB, <- L'. apply nth_error_Some. congruence. }
  split.
  - split; [|split; [|split; [|split; [|split; [|split]]]]]; cbn [pGroups pExtra].
    + apply Forall_forall. intros g' Hg'. apply In_nth_error in Hg'. destruct Hg' as (r & E1). destruct (FL r g' E1) as (g0 & E0). now apply (FN r g0).
    + intros r r' g g' E1 E2. destruct (FL r g E1) as (g0 & E0). destruct (FL r' g' E2) as (g0' & E0'). destruct (FN r g0 g E0 E1) as (_ & _ & ->). destruct (FN r' g0' g' E0' E2) as (_ & _ & ->). reflexivity.
    + rewrite L', LB. exact HO.
    + apply (full_dsgOk E); auto. pose proof DE as (_ & _ & _ & _ & TE). now rewrite SE in TE.
    + apply FE.
    + intros g' i Hg' Hi. apply In_nth_error in Hg'. destruct Hg' as (r & E1). destruct (FL r g' E1) as (g0 & E0). destruct (FN r g0 g' E0 E1) as ((_ & SZ & _) & _). unfold dataSize. rewrite SZ.
      apply EE; auto. now apply nth_error_In in E0.
    + intros g' Hg'. apply In_nth_error in Hg'. destruct Hg' as (r & E1). destruct (FL r g' E1) as (g0 & E0). destruct (FN r g0 g' E0 E1) as (_ & _ & ->). exact TS.
  - apply nth_error_Forall2; [lia|]. intros r g0 g' E0 E1. now apply (FN r).
Qed.
End Proc.
