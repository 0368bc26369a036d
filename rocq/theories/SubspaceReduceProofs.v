(** The two reductions leave the sums over the groups in the sparse grids. *)
From Verif Require Import Base TensorModel Level1dModel LevelSetsModel LevelSetsProofs SubspaceModel CombiSchemeModel Hier1dModel Hier1dProofs HierMassProofs
  SparseGridModel SparseGridProofs CombineModel SparseTransferProofs ReduceModel ReduceProofs.
From Coq Require Import QArith Qcanon.
Open Scope Z_scope.
Ltac Zify.zify_post_hook ::= idtac.

(** ** Addresses of subspaces *)
Definition segment (d : DSG) (s : Z) : list Z := zrange (off d s) (off d s + dataSize d s).

Lemma off_bound : forall levels d i, ready levels d -> In i (dWith d) -> 0 <= i < Z.of_nat (length levels) -> off d i + dataSize d i <= dLen d.
Proof.
  intros levels d i R Hi Hn. pose proof R as (I & LD & LK & LL & K). destruct I as (I1 & I2 & I3 & _). rewrite <- I1 in I3.
  destruct (laidOut_spec _ _ _ _ I2 I3 LD LL) as (_ & P & _ & E). rewrite E. unfold off, dataSize. rewrite <- P by auto.
  apply before_mono; [|lia]. eapply Forall_impl; [|exact I2]. cbn. intros; lia.
Qed.

Lemma off_mono : forall levels d i j, ready levels d -> 0 <= i <= j -> off d i <= off d j.
Proof.
  intros levels d i j (I & _) H. destruct I as (_ & I2 & _). unfold off. apply before_mono; auto. eapply Forall_impl; [|exact I2]. cbn. intros; lia.
Qed.

Lemma dataSize_nonneg : forall levels d i, ready levels d -> 0 <= dataSize d i.
Proof. intros levels d i (I & _). now apply (dataSize_range _ _ i) in I. Qed.

Lemma sorted_hd_le : forall l s, StronglySorted Z.lt l -> In s l -> hd 0 l <= s.
Proof.
  intros [|x l] s S H; [destruct H|]. cbn. apply StronglySorted_inv in S. destruct S as [_ F]. rewrite Forall_forall in F.
  destruct H as [<-|H]; [lia|]. specialize (F s H). lia.
Qed.

Lemma chunkAddresses_spec : forall levels d chunk, ready levels d -> dLen d < 2 ^ 31 -> StronglySorted Z.lt chunk ->
  (forall s, In s chunk -> In s (dWith d) /\ 0 <= s < Z.of_nat (length levels)) ->
  chunkAddresses d chunk = flat_map (segment d) chunk.
Proof.
  intros levels d chunk R HL HS HC. unfold chunkAddresses. cbv zeta. rewrite !flat_map_concat_map. f_equal. apply map_ext_in. intros s Hs.
  destruct (HC s Hs) as [W N]. pose proof (sorted_hd_le chunk s HS Hs) as H0.
  assert (Hh : In (hd 0 chunk) chunk) by (destruct chunk; [destruct Hs|now left]). destruct (HC _ Hh) as [W0 N0].
  destruct (ready_ptr levels d R s N) as (E & _ & P). destruct (ready_ptr levels d R _ N0) as (E0 & _ & P0). rewrite E, E0.
  pose proof (off_bound levels d s R W N) as B. pose proof (off_mono levels d (hd 0 chunk) s R ltac:(lia)) as M. pose proof (dataSize_nonneg levels d s R) as D.
  rewrite !i32_id by lia. unfold segment. f_equal; lia.
Qed.

Lemma segment_length : forall d s, 0 <= dataSize d s -> length (segment d s) = Z.to_nat (dataSize d s).
Proof. intros. unfold segment. rewrite zrange_length. f_equal. lia. Qed.

Lemma segment_nth : forall d s j, 0 <= j < dataSize d s -> nth (Z.to_nat j) (segment d s) 0 = off d s + j.
Proof. intros d s j H. unfold segment, zrange. rewrite zseq_nth by lia. lia. Qed.

(** Segments of different subspaces are disjoint. *)
Lemma segment_inj : forall levels d s s' k, ready levels d -> In s (dWith d) -> In s' (dWith d) -> 0 <= s -> 0 <= s' ->
  In k (segment d s) -> In k (segment d s') -> s = s'.
Proof.
  intros levels d s s' k R W W' P P' H H'. unfold segment in *. apply zrange_In in H, H'.
  destruct (Z.lt_trichotomy s s') as [L|[L|L]]; auto.
  - pose proof (off_disjoint levels d R s s' ltac:(lia) W). lia.
  - pose proof (off_disjoint levels d R s' s ltac:(lia) W'). lia.
Qed.

Lemma sorted_NoDup : forall l, StronglySorted Z.lt l -> NoDup l.
Proof.
  induction l as [|x l IH]; intros S; constructor; apply StronglySorted_inv in S; destruct S as [S F].
  - intros X. rewrite Forall_forall in F. specialize (F x X). lia.
  - auto.
Qed.

Lemma concat_sorted_chunk : forall (ch : list Z) chunks, StronglySorted Z.lt (concat chunks) -> In ch chunks -> StronglySorted Z.lt ch.
Proof.
  intros ch chunks. induction chunks as [|c chunks IH]; intros S H; [destruct H|]. cbn [concat] in S.
  assert (A : forall (a b : list Z), StronglySorted Z.lt (a ++ b) -> StronglySorted Z.lt a /\ StronglySorted Z.lt b).
  { induction a as [|x a IHa]; intros b Sb; [split; auto; constructor|]. cbn [app] in Sb. apply StronglySorted_inv in Sb. destruct Sb as [Sb F].
    destruct (IHa b Sb) as [A1 A2]. split; auto. constructor; auto. rewrite Forall_forall in *. intros y Hy. apply F. apply in_or_app. now left. }
  apply A in S. destruct S as [S1 S2]. destruct H as [<-|H]; auto.
Qed.

Lemma flat_map_concat : forall {A B} (f : A -> list B) ll, flat_map f (concat ll) = flat_map (flat_map f) ll.
Proof. intros A B f. induction ll as [|l ll IH]; auto. cbn [concat flat_map]. now rewrite flat_map_app, IH. Qed.

Lemma takeChunk_ext : forall size size' mc rest cur, (forall s, In s rest -> size s = size' s) -> takeChunk size mc cur rest = takeChunk size' mc cur rest.
Proof.
  intros size size' mc. induction rest as [|s rest IH]; intros cur H; cbn [takeChunk]; auto. rewrite (H s) by now left.
  rewrite IH by (intros x Hx; apply H; now right). reflexivity.
Qed.
Lemma takeChunk_app : forall size mc rest cur, fst (takeChunk size mc cur rest) ++ snd (takeChunk size mc cur rest) = rest.
Proof.
  intros size mc. induction rest as [|s rest IH]; intros cur; cbn [takeChunk]; auto. destruct (_ =? 0); auto. destruct (_ <? _); auto.
  specialize (IH (u32 (cur + size s))). destruct (takeChunk size mc _ rest) as [c r]. cbn [fst snd] in *. cbn [app]. now f_equal.
Qed.
Lemma chunked_ext : forall size size' mc fuel l, (forall s, In s l -> size s = size' s) -> chunkedSubspaces fuel size mc l = chunkedSubspaces fuel size' mc l.
Proof.
  intros size size' mc. induction fuel as [|fuel IH]; intros l H; auto. destruct l as [|s rest]; auto. cbn [chunkedSubspaces].
  rewrite (H s) by now left. rewrite (takeChunk_ext size size') by (intros x Hx; apply H; now right).
  pose proof (takeChunk_app size' mc rest (u32 (0 + size' s))) as A. destruct (takeChunk size' mc _ rest) as [c r]. cbn [fst snd] in A.
  f_equal. apply IH. intros x Hx. apply H. right. rewrite <- A. apply in_or_app. now right.
Qed.

Definition memberOf {A} (x : A) (l : list A) := In x l.

(** ** Subspace reduce *)
Section Reduce.
Variables (levels : list (list Z)) (mc : Z) (comms : nat -> list (list nat * list Z)) (ds : nat -> DSG).
Let n := Z.of_nat (length levels).
Hypothesis HMC : 0 < mc < 2 ^ 31.
Hypothesis HR : forall r M is, In (M, is) (comms r) -> ready levels (ds r) /\ dLen (ds r) < 2 ^ 31.
Hypothesis HE : forall r M is, In (M, is) (comms r) -> StronglySorted Z.lt is /\ (forall i, In i is -> In i (dWith (ds r)) /\ 0 <= i < n).
Hypothesis HK : forall r, NoDup (map fst (comms r)).
Hypothesis HU : forall r M is M' is' i, In (M, is) (comms r) -> In (M', is') (comms r) -> In i is -> In i is' -> M = M'.
Hypothesis HM : forall r M is, In (M, is) (comms r) -> In r M /\ forall r', In r' M -> In (M, is) (comms r') /\ forall i, In i is -> dataSize (ds r') i = dataSize (ds r) i.

Lemma size_bound : forall r M is i, In (M, is) (comms r) -> In i is -> 0 <= dataSize (ds r) i < 2 ^ 31.
Proof.
  intros r M is i H Hi. destruct (HE r M is H) as [_ X]. destruct (X i Hi) as [W N]. destruct (HR r M is H) as [R L].
  pose proof (off_bound levels (ds r) i R W N). destruct (ready_ptr levels (ds r) R i N) as (_ & _ & P). pose proof (dataSize_nonneg levels (ds r) i R). lia.
Qed.

Lemma eqComm_spec : forall a b, eqComm a b = true <-> a = b.
Proof. intros a b. unfold eqComm. destruct (list_eq_dec Nat.eq_dec a b); split; intros; auto; discriminate || contradiction. Qed.

Lemma callsIn_none : forall entries d M, ~ In M (map fst entries) -> callsIn mc entries d M = [].
Proof.
  intros entries d M H. unfold callsIn. induction entries as [|[M' is] es IH]; auto. cbn [flat_map fst snd map] in *.
  destruct (eqComm M' M) eqn:E; [apply eqComm_spec in E; subst; exfalso; apply H; now left|]. apply IH. intros X. apply H. now right.
Qed.
Lemma callsIn_one : forall entries d M is, NoDup (map fst entries) -> In (M, is) entries ->
  callsIn mc entries d M = map (chunkAddresses d) (getChunkedSubspaces (dataSize d) mc is).
Proof.
  intros entries d M is. induction entries as [|[M' is'] es IH]; intros ND H; [destruct H|]. cbn [map fst] in ND. apply NoDup_cons_iff in ND.
  destruct ND as [N ND]. unfold callsIn in *. cbn [flat_map fst snd]. destruct H as [E|H].
  - injection E as -> ->. rewrite (proj2 (eqComm_spec M M) eq_refl). change (flat_map _ es) with (callsIn mc es d M).
    rewrite callsIn_none by auto. apply app_nil_r.
  - destruct (eqComm M' M) eqn:E; [apply eqComm_spec in E; subst; exfalso; apply N; exact (in_map fst _ _ H)|]. cbn [app]. now apply IH.
Qed.

Lemma callsIn_cases : forall r M, (exists is, In (M, is) (comms r)) \/ ~ In M (map fst (comms r)).
Proof.
  intros r M. destruct (in_dec (list_eq_dec Nat.eq_dec) M (map fst (comms r))) as [H|H]; auto. left. apply in_map_iff in H.
  destruct H as ([M' is] & E & H). cbn in E. subst. now exists is.
Qed.

Lemma callsIn_chunks : forall r M is, In (M, is) (comms r) -> forall r', In r' M ->
  callsIn mc (comms r') (ds r') M = map (chunkAddresses (ds r')) (getChunkedSubspaces (dataSize (ds r)) mc is).
Proof.
  intros r M is H r' Hr'. destruct (HM r M is H) as [Hr X]. destruct (X r' Hr') as [H' Hs].
  rewrite (callsIn_one (comms r') (ds r') M is) by auto. f_equal. unfold getChunkedSubspaces. now apply chunked_ext.
Qed.

Lemma callsIn_segments : forall r M is, In (M, is) (comms r) -> concat (callsIn mc (comms r) (ds r) M) = flat_map (segment (ds r)) is.
Proof.
  intros r M is H. rewrite (callsIn_chunks r M is H r) by now apply (HM r M is H). destruct (HE r M is H) as [S X].
  destruct (chunked_spec (dataSize (ds r)) mc (length is) is (fun s Hs => size_bound r M is s H Hs) HMC (le_n _)) as [C _].
  fold (getChunkedSubspaces (dataSize (ds r)) mc is) in C. set (chunks := getChunkedSubspaces _ _ _) in *. clearbody chunks.
  rewrite <- C. rewrite flat_map_concat, flat_map_concat_map. f_equal. apply map_ext_in. intros ch Hch.
  assert (I : forall s, In s ch -> In s is) by (intros s Hs; rewrite <- C; apply in_concat; exists ch; auto).
  destruct (HR r M is H) as [R L]. apply (chunkAddresses_spec levels); auto. apply (concat_sorted_chunk ch chunks); auto. now rewrite C.
Qed.

(** What the rounds of the communicators in [order] look like. *)
Lemma roundsOfComms_spec : forall order, NoDup order ->
  exists rounds, roundsOfComms mc comms ds order = Some rounds /\
    Forall matched rounds /\
    (forall r, NoDup (flat_map (addrIn r) rounds)) /\
    (forall r k, In k (flat_map (addrIn r) rounds) -> exists M is, In M order /\ In (M, is) (comms r) /\ In k (flat_map (segment (ds r)) is)) /\
    (forall r M is ch, In M order -> In (M, is) (comms r) -> In ch (getChunkedSubspaces (dataSize (ds r)) mc is) ->
       exists t, In t rounds /\ fst t = M /\ forall r', In r' M -> snd t r' = chunkAddresses (ds r') ch).
Proof.
  induction order as [|M order IH]; intros ND.
  - exists []. cbn [roundsOfComms flat_map]. split; auto. split; [constructor|]. split; [intros; constructor|]. split; [intros r k []|intros r M is ch []].
  - apply NoDup_cons_iff in ND. destruct ND as [NM ND]. destruct (IH ND) as (rs & E & Mt & N & A & V). cbn [roundsOfComms].
    destruct (roundsOf_spec M (fun r => callsIn mc (comms r) (ds r) M)) as (rs1 & E1 & F1 & C1 & O1 & D1).
    { intros r r' Hr Hr'. destruct (callsIn_cases r M) as [(is & H)|H].
      - rewrite (callsIn_chunks r M is H r Hr), (callsIn_chunks r M is H r' Hr'). now rewrite !map_length.
      - destruct (callsIn_cases r' M) as [(is & H')|H'].
        + destruct (HM r' M is H') as [_ X]. destruct (X r Hr) as [H'' _]. exfalso. apply H. exact (in_map fst _ _ H'').
        + now rewrite !callsIn_none by auto. }
    rewrite E1, E. exists (rs1 ++ rs). split; auto.
    assert (L1 : forall r k, In k (flat_map (addrIn r) rs1) -> exists is, In (M, is) (comms r) /\ In k (flat_map (segment (ds r)) is)).
    { intros r k Hk. destruct (in_dec Nat.eq_dec r M) as [Hr|Hr]; [|rewrite O1 in Hk by auto; destruct Hk]. rewrite D1 in Hk by auto.
      destruct (callsIn_cases r M) as [(is & H)|H].
      - exists is. split; auto. now rewrite (callsIn_segments r M is H) in Hk.
      - rewrite callsIn_none in Hk by auto. destruct Hk. }
    split; [|split; [|split]].
    + apply Forall_app. split; auto. apply Forall_forall. intros t Ht r r' Hr Hr'. rewrite (F1 t Ht) in Hr, Hr'.
      apply (In_nth _ _ t) in Ht. destruct Ht as (k & Hk & Ek).
      assert (G : forall q, In q M -> snd t q = nth k (callsIn mc (comms q) (ds q) M) (snd t q)).
      { intros q Hq. rewrite <- (C1 q Hq), (map_nth (fun t => snd t q)). now rewrite Ek. }
      rewrite (G r Hr), (G r' Hr').
      assert (LK : forall q, In q M -> (k < length (callsIn mc (comms q) (ds q) M))%nat) by (intros q Hq; rewrite <- (C1 q Hq), map_length; auto).
      destruct (callsIn_cases r M) as [(is & H)|H]; [|specialize (LK r Hr); rewrite callsIn_none in LK by auto; cbn in LK; lia].
      pose proof (LK r Hr) as L. pose proof (LK r' Hr') as L'. rewrite (callsIn_chunks r M is H r Hr) in L |- *. rewrite (callsIn_chunks r M is H r' Hr') in L' |- *.
      rewrite map_length in L, L'. rewrite (nth_indep _ (snd t r) (chunkAddresses (ds r) [])), (nth_indep _ (snd t r') (chunkAddresses (ds r') [])) by (now rewrite map_length).
      rewrite !map_nth. set (chunks := getChunkedSubspaces (dataSize (ds r)) mc is) in *.
      destruct (HM r M is H) as [_ X]. destruct (X r' Hr') as [H' Hs].
      destruct (chunked_spec (dataSize (ds r)) mc (length is) is (fun s Hs => size_bound r M is s H Hs) HMC (le_n _)) as [C _].
      fold (getChunkedSubspaces (dataSize (ds r)) mc is) in C. fold chunks in C.
      assert (HI : In (nth k chunks []) chunks) by now apply nth_In. set (ch := nth k chunks []) in *. clearbody ch. clear L L' LK.
      assert (I : forall s, In s ch -> In s is) by (intros s Hs'; rewrite <- C; apply in_concat; exists ch; auto).
      assert (SC : StronglySorted Z.lt ch) by (apply (concat_sorted_chunk ch chunks); auto; rewrite C; apply (HE r M is H)).
      destruct (HR r M is H) as [R RL], (HR r' M is H') as [R' RL'].
      rewrite (chunkAddresses_spec levels (ds r)), (chunkAddresses_spec levels (ds r')); auto;
        [|intros s Hs'; apply (HE r' M is H'); auto|intros s Hs'; apply (HE r M is H); auto].
      clear - Hs I R R'. induction ch as [|s ch IHc]; auto. cbn [flat_map]. rewrite !app_length, IHc by (intros x Hx; apply I; now right).
      rewrite !segment_length by (eapply dataSize_nonneg; eauto). rewrite Hs by (apply I; now left). reflexivity.
    + intros r. rewrite flat_map_app. apply NoDup_app_intro; auto.
      * destruct (in_dec Nat.eq_dec r M) as [Hr|Hr]; [|rewrite O1 by auto; constructor]. rewrite D1 by auto.
        destruct (callsIn_cases r M) as [(is & H)|H]; [|rewrite callsIn_none by auto; constructor].
        rewrite (callsIn_segments r M is H). destruct (HE r M is H) as [S X]. apply NoDup_flat_map.
        -- now apply sorted_NoDup.
        -- intros s _. apply zrange_NoDup.
        -- intros a b x Ha Hb. destruct (X a Ha), (X b Hb). apply (segment_inj levels (ds r)); auto; try lia. now apply (HR r M is).
      * intros k K1 K2. destruct (L1 r k K1) as (is & H & S1). destruct (A r k K2) as (M' & is' & HM' & H' & S2).
        apply in_flat_map in S1, S2. destruct S1 as (s & Hs & S1), S2 as (s' & Hs' & S2). destruct (HE r M is H) as [_ X], (HE r M' is' H') as [_ X'].
        destruct (X s Hs), (X' s' Hs'). assert (s = s') by (apply (segment_inj levels (ds r) s s' k); auto; try lia; now apply (HR r M is)). subst s'.
        assert (M = M') by (eapply (HU r); eauto). subst. contradiction.
    + intros r k Hk. rewrite flat_map_app in Hk. apply in_app_or in Hk. destruct Hk as [Hk|Hk].
      * destruct (L1 r k Hk) as (is & H & S1). exists M, is. split; [now left|auto].
      * destruct (A r k Hk) as (M' & is' & X & Y). exists M', is'. split; [now right|auto].
    + intros r M' is ch [<-|HM'] H Hch.
      * destruct (HM r M is H) as [Hr _]. apply (In_nth _ _ []) in Hch. destruct Hch as (k & Hk & Ek).
        assert (LK : (k < length rs1)%nat).
        { rewrite <- (map_length (fun t => snd t r) rs1), (C1 r Hr), (callsIn_chunks r M is H r Hr), map_length. auto. }
        exists (nth k rs1 (M, fun _ => [])). split; [apply in_or_app; left; now apply nth_In|]. split; [apply F1; now apply nth_In|].
        intros r' Hr'. rewrite <- (map_nth (fun t => snd t r')), (C1 r' Hr'), (callsIn_chunks r M is H r' Hr').
        rewrite (nth_indep _ _ (chunkAddresses (ds r') [])) by (now rewrite map_length). rewrite map_nth. now rewrite Ek.
      * destruct (V r M' is ch HM' H Hch) as (t & T1 & T2). exists t. split; auto. apply in_or_app. now right.
Qed.

Lemma subspaceReduce_spec : forall order, NoDup order -> (forall r M is, In (M, is) (comms r) -> In M order) ->
  exists ds', subspaceReduce mc order comms ds = Some ds' /\
    (forall r, sameShape (ds r) (ds' r) /\ dKahan (ds' r) = dKahan (ds r)) /\
    (forall r M is i j, In (M, is) (comms r) -> In i is -> 0 <= j < dataSize (ds r) i ->
       dData (ds' r) (off (ds r) i + j) = qsum (map (fun r' => dData (ds r') (off (ds r') i + j)) M)) /\
    (forall r i j, In i (dWith (ds r)) -> 0 <= i < n -> 0 <= j < dataSize (ds r) i -> (forall M is, In (M, is) (comms r) -> ~ In i is) ->
       dData (ds' r) (off (ds r) i + j) = dData (ds r) (off (ds r) i + j)).
Proof.
  intros order ND HO. destruct (roundsOfComms_spec order ND) as (rs & E & Mt & N & A & V). unfold subspaceReduce. rewrite E.
  destruct (allreduces_spec rs (fun r => dData (ds r)) Mt N) as (bufs & EB & VB & OB). rewrite EB. eexists. split; [reflexivity|].
  split; [intros r; split; [repeat split|reflexivity]|]. cbn [withData dData]. split.
  - intros r M is i j H Hi Hj. destruct (HE r M is H) as [S X].
    destruct (chunked_spec (dataSize (ds r)) mc (length is) is (fun s Hs => size_bound r M is s H Hs) HMC (le_n _)) as [C _].
    fold (getChunkedSubspaces (dataSize (ds r)) mc is) in C. pose proof Hi as Hi'. rewrite <- C in Hi'. apply in_concat in Hi'. destruct Hi' as (ch & Hch & Hic).
    destruct (V r M is ch (HO r M is H) H Hch) as (t & T1 & T2 & T3). destruct (HM r M is H) as [Hr Y].
    assert (I : forall s, In s ch -> In s is) by (intros s Hs'; rewrite <- C; apply in_concat; exists ch; auto).
    assert (SC : StronglySorted Z.lt ch) by (apply (concat_sorted_chunk ch (getChunkedSubspaces (dataSize (ds r)) mc is)); auto; rewrite C; auto).
    apply in_split in Hic. destruct Hic as (a & b & Ech).
    set (e := (length (flat_map (segment (ds r)) a) + Z.to_nat j)%nat).
    assert (G : forall r', In r' M -> nth e (snd t r') 0 = off (ds r') i + j /\ (e < length (snd t r'))%nat).
    { intros r' Hr'. destruct (Y r' Hr') as [H' Hs]. destruct (HR r' M is H') as [R' RL']. rewrite (T3 r' Hr').
      rewrite (chunkAddresses_spec levels (ds r')); auto; [|intros s Hs'; apply (HE r' M is H'); auto]. subst ch. rewrite flat_map_app. cbn [flat_map].
      assert (LA : length (flat_map (segment (ds r')) a) = length (flat_map (segment (ds r)) a)).
      { assert (I' : forall s, In s a -> In s is) by (intros s Hs'; apply I; apply in_or_app; now left). destruct (HR r M is H) as [R RL].
        clear - I' Hs R R'. induction a as [|s a IHa]; auto. cbn [flat_map]. rewrite !app_length, IHa by (intros x Hx; apply I'; now right).
        rewrite !segment_length by (eapply dataSize_nonneg; eauto). rewrite Hs by (apply I'; now left). reflexivity. }
      assert (DJ : 0 <= j < dataSize (ds r') i) by (rewrite Hs; auto). split.
      - unfold e. rewrite <- LA. rewrite app_nth2 by lia. replace (length (flat_map (segment (ds r')) a) + Z.to_nat j - length (flat_map (segment (ds r')) a))%nat with (Z.to_nat j) by lia.
        rewrite app_nth1 by (rewrite segment_length; lia). now apply segment_nth.
      - unfold e. rewrite !app_length, segment_length, LA by lia. lia. }
    destruct (G r Hr) as [G1 G2]. rewrite <- G1, VB; auto; [|now rewrite T2]. rewrite T2. f_equal. apply map_ext_in. intros r' Hr'. f_equal. now apply G.
  - intros r i j W Hn Hj HNo. apply OB. intros X. destruct (A r _ X) as (M & is & _ & H & K). apply in_flat_map in K. destruct K as (s & Hs & K).
    destruct (HE r M is H) as [_ Y]. destruct (Y s Hs). apply (HNo M is H). destruct (HR r M is H) as [R _].
    assert (s = i) as <-; auto. apply (segment_inj levels (ds r) s i (off (ds r) i + j)); auto; try lia. unfold segment. apply zrange_In. lia.
Qed.
End Reduce.

(** ** Sparse grid reduce *)
Lemma sparseGridReduce_spec : forall R mc ds len, 0 < mc < 2 ^ 31 -> 0 <= len < 2 ^ 63 -> (forall r, (r < R)%nat -> dLen (ds r) = len) ->
  exists ds', sparseGridReduce R mc ds = Some ds' /\
    (forall r, sameShape (ds r) (ds' r) /\ dKahan (ds' r) = dKahan (ds r)) /\
    (forall r k, (r < R)%nat -> 0 <= k < len -> dData (ds' r) k = qsum (map (fun r' => dData (ds r') k) (seq 0 R))).
Proof.
  intros R mc ds len HC HB HL. unfold sparseGridReduce.
  destruct (sparseGridCalls_spec (Z.to_nat len) len mc 0 HC ltac:(lia) ltac:(lia) ltac:(lia)) as (calls & last & E & C & _).
  set (calls' := calls ++ [last]) in *. clearbody calls'.
  set (cs := fun r => optCalls (sparseGridCalls (Z.to_nat (dLen (ds r))) (dLen (ds r)) mc 0)).
  assert (CS : forall r, In r (seq 0 R) -> cs r = map rangeOf calls').
  { intros r Hr. apply in_seq in Hr. unfold cs. rewrite (HL r) by lia. rewrite E. reflexivity. }
  destruct (roundsOf_spec (seq 0 R) cs) as (rs & E1 & F1 & C1 & O1 & D1).
  { intros r r' Hr Hr'. now rewrite !CS. }
  fold cs. rewrite E1. destruct (allreduces_spec rs (fun r => dData (ds r))) as (bufs & EB & VB & OB).
  { apply Forall_forall. intros t Ht r r' Hr Hr'. rewrite (F1 t Ht) in Hr, Hr'. apply (In_nth _ _ t) in Ht. destruct Ht as (k & Hk & Ek).
    assert (G : forall q, In q (seq 0 R) -> snd t q = nth k (map rangeOf calls') (snd t q)).
    { intros q Hq. rewrite <- (CS q Hq), <- (C1 q Hq), (map_nth (fun t => snd t q)). now rewrite Ek. }
    assert (LK : (k < length (map rangeOf calls'))%nat) by (rewrite <- (CS r Hr), <- (C1 r Hr), map_length; auto).
    rewrite (G r Hr), (G r' Hr'). f_equal. now apply nth_indep. }
  { intros r. destruct (in_dec Nat.eq_dec r (seq 0 R)) as [Hr|Hr]; [|rewrite O1 by auto; constructor]. rewrite D1, CS by auto.
    rewrite <- flat_map_concat_map, C. apply zrange_NoDup. }
  rewrite EB. eexists. split; [reflexivity|]. split; [intros r; split; [repeat split|reflexivity]|]. cbn [withData dData].
  intros r k Hr Hk. assert (Hk' : In k (flat_map rangeOf calls')) by (rewrite C; now apply zrange_In).
  apply in_flat_map in Hk'. destruct Hk' as (c & Hc & Hk'). apply (In_nth _ _ c) in Hc. destruct Hc as (q & Hq & Eq).
  assert (Hr' : In r (seq 0 R)) by (apply in_seq; lia).
  assert (LQ : (q < length rs)%nat) by (rewrite <- (map_length (fun t => snd t r)), (C1 r Hr'), (CS r Hr'), map_length; auto).
  set (t := nth q rs ([], fun _ => [])). assert (Ht : In t rs) by now apply nth_In.
  assert (ST : forall x, In x (seq 0 R) -> snd t x = rangeOf c).
  { intros x Hx. unfold t. rewrite <- (map_nth (fun t => snd t x)), (C1 x Hx), (CS x Hx). rewrite (nth_indep _ _ (rangeOf c)) by now rewrite map_length.
    rewrite map_nth. now rewrite Eq. }
  apply (In_nth _ _ 0) in Hk'. destruct Hk' as (e & He & Ee).
  pose proof (VB t r e Ht) as X. rewrite (F1 t Ht), (ST r Hr'), Ee in X. rewrite X by auto. f_equal. apply map_ext_in.
  intros r' Hx. now rewrite (ST r' Hx), Ee.
Qed.
