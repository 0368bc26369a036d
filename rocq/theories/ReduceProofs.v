(** Proofs about the reduction between process groups. *)
From Verif Require Import Base TensorModel Level1dModel LevelSetsModel LevelSetsProofs SubspaceModel CombiSchemeModel Hier1dModel Hier1dProofs HierMassProofs
  SparseGridModel SparseGridProofs CombineModel SparseTransferProofs ReduceModel.
From Coq Require Import QArith Qcanon.
Open Scope Z_scope.
Ltac Zify.zify_post_hook ::= idtac.

Lemma memN_In : forall r l, memN r l = true <-> In r l.
Proof.
  intros r l. unfold memN. rewrite existsb_exists. split.
  - intros (x & Hx & E). apply Nat.eqb_eq in E. now subst.
  - intros H. exists r. split; auto. apply Nat.eqb_refl.
Qed.

Lemma i32_id : forall x, - 2 ^ 31 <= x < 2 ^ 31 -> i32 x = x.
Proof. intros x H. unfold i32. rewrite Z.mod_small by lia. lia. Qed.
Lemma u64_id : forall x, 0 <= x < 2 ^ 64 -> u64 x = x.
Proof. intros x H. unfold u64. now apply Z.mod_small. Qed.
Lemma u32_id : forall x, 0 <= x < 2 ^ 32 -> u32 x = x.
Proof. intros x H. unfold u32. now apply Z.mod_small. Qed.

Lemma NoDup_app_elim : forall {A : Type} (l l' : list A), NoDup (l ++ l') -> NoDup l /\ NoDup l' /\ (forall x, In x l -> ~ In x l').
Proof.
  induction l as [|a l IH]; intros l' H; cbn [app] in H.
  - split; [constructor|]. split; auto.
  - apply NoDup_cons_iff in H. destruct H as [H1 H2]. destruct (IH l' H2) as (A1 & A2 & A3). rewrite in_app_iff in H1.
    split; [constructor; auto|]. split; auto. intros x [<-|Hx]; auto.
Qed.

(** ** Collective sums *)

Lemma scatterV_other : forall addrs vals buf k, ~ In k addrs -> scatterV addrs vals buf k = buf k.
Proof.
  induction addrs as [|a addrs IH]; intros [|v vals] buf k H; cbn [scatterV]; auto.
  rewrite IH by (intros X; apply H; now right). apply setA_other. intros ->. apply H. now left.
Qed.
Lemma scatterV_nth : forall addrs vals buf e, NoDup addrs -> length vals = length addrs -> (e < length addrs)%nat ->
  scatterV addrs vals buf (nth e addrs 0) = nth e vals 0%Qc.
Proof.
  induction addrs as [|a addrs IH]; intros [|v vals] buf e ND HL He; cbn [length] in *; try lia. inv ND. cbn [scatterV].
  destruct e as [|e]; cbn [nth].
  - rewrite scatterV_other by auto. apply setA_same.
  - apply IH; auto; lia.
Qed.

Definition addrIn (r : nat) (t : list nat * (nat -> list Z)) : list Z := if memN r (fst t) then snd t r else [].
Definition matched (t : list nat * (nat -> list Z)) : Prop := forall r r', In r (fst t) -> In r' (fst t) -> length (snd t r) = length (snd t r').

Lemma allreduce_spec : forall t bufs, matched t -> (forall r, NoDup (addrIn r t)) ->
  exists bufs', allreduce (fst t) (snd t) bufs = Some bufs' /\
    (forall r e, In r (fst t) -> (e < length (snd t r))%nat ->
       bufs' r (nth e (snd t r) 0) = qsum (map (fun r' => bufs r' (nth e (snd t r') 0)) (fst t))) /\
    (forall r k, ~ In k (addrIn r t) -> bufs' r k = bufs r k).
Proof.
  intros [m a] bufs HM HN. cbn [fst snd] in *. unfold matched in HM. cbn [fst snd] in HM. unfold allreduce.
  set (len := match m with [] => O | r :: _ => length (a r) end).
  assert (HL : forall r, In r m -> length (a r) = len).
  { intros r Hr. unfold len. destruct m as [|r0 m]; [destruct Hr|]. apply HM; auto. now left. }
  assert (E : forallb (fun r => Nat.eqb (length (a r)) len) m = true) by (apply forallb_forall; intros r Hr; apply Nat.eqb_eq; auto).
  rewrite E. eexists. split; [reflexivity|]. split.
  - intros r e Hr He. pose proof (proj2 (memN_In r m) Hr) as Em. rewrite Em. specialize (HN r). unfold addrIn in HN. cbn [fst snd] in HN. rewrite Em in HN.
    rewrite scatterV_nth; auto.
    + unfold sums. rewrite (nth_indep _ 0%Qc (qsum (map (fun r => bufs r (nth O (a r) 0)) m))) by (rewrite map_length, seq_length, <- (HL r) by auto; auto).
      set (f := fun e => qsum (map (fun r => bufs r (nth e (a r) 0)) m)). change (nth e (map f (seq 0 len)) (f O) = f e).
      rewrite map_nth, seq_nth by (rewrite <- (HL r); auto). reflexivity.
    + unfold sums. rewrite map_length, seq_length. symmetry. auto.
  - intros r k Hk. unfold addrIn in Hk. cbn [fst snd] in Hk. destruct (memN r m) eqn:Em; auto. now apply scatterV_other.
Qed.

(** A sequence of collective calls that touch every address at most once. *)
Lemma allreduces_spec : forall rounds bufs, Forall matched rounds -> (forall r, NoDup (flat_map (addrIn r) rounds)) ->
  exists bufs', allreduces rounds bufs = Some bufs' /\
    (forall t r e, In t rounds -> In r (fst t) -> (e < length (snd t r))%nat ->
       bufs' r (nth e (snd t r) 0) = qsum (map (fun r' => bufs r' (nth e (snd t r') 0)) (fst t))) /\
    (forall r k, ~ In k (flat_map (addrIn r) rounds) -> bufs' r k = bufs r k).
Proof.
  induction rounds as [|t rounds IH]; intros bufs HM HN.
  - exists bufs. split; auto. split; [intros t r e []|auto].
  - apply Forall_cons_iff in HM. destruct HM as [HM HMs].
    assert (N1 : forall r, NoDup (addrIn r t)) by (intros r; apply (NoDup_app_elim _ _ (HN r))).
    assert (N2 : forall r, NoDup (flat_map (addrIn r) rounds)) by (intros r; apply (NoDup_app_elim _ _ (HN r))).
    assert (D : forall r k, In k (addrIn r t) -> ~ In k (flat_map (addrIn r) rounds)) by (intros r; apply (NoDup_app_elim _ _ (HN r))).
    destruct (allreduce_spec t bufs HM N1) as (b1 & E1 & V1 & O1).
    destruct (IH b1 HMs N2) as (b2 & E2 & V2 & O2).
    exists b2. destruct t as [m a]. cbn [allreduces]. cbn [fst snd] in *. rewrite E1. split; auto. split.
    + intros t' r e [<-|Ht] Hr He; cbn [fst snd] in *.
      * rewrite O2; [now apply V1|]. apply D. unfold addrIn. cbn [fst snd]. rewrite (proj2 (memN_In r m) Hr). now apply nth_In.
      * rewrite V2 by auto. f_equal. apply map_ext_in. intros r' Hr'. apply O1. intros X. apply (D r' _ X).
        apply in_flat_map. exists t'. split; auto. unfold addrIn. rewrite (proj2 (memN_In r' (fst t')) Hr'). apply nth_In.
        rewrite Forall_forall in HMs. rewrite (HMs t' Ht r' r); auto.
    + intros r k Hk. cbn [flat_map] in Hk. rewrite in_app_iff in Hk. rewrite O2 by tauto. apply O1. tauto.
Qed.

Lemma roundsOf_spec : forall members calls, (forall r r', In r members -> In r' members -> length (calls r) = length (calls r')) ->
  exists rounds, roundsOf members calls = Some rounds /\
    (forall t, In t rounds -> fst t = members) /\
    (forall r, In r members -> map (fun t => snd t r) rounds = calls r) /\
    (forall r, ~ In r members -> flat_map (addrIn r) rounds = []) /\
    (forall r, In r members -> flat_map (addrIn r) rounds = concat (calls r)).
Proof.
  intros members calls HL. unfold roundsOf. set (m := match members with [] => O | r :: _ => length (calls r) end).
  assert (HL' : forall r, In r members -> length (calls r) = m).
  { intros r Hr. unfold m. destruct members as [|r0 ms]; [destruct Hr|]. apply HL; auto. now left. }
  assert (E : forallb (fun r => Nat.eqb (length (calls r)) m) members = true) by (apply forallb_forall; intros r Hr; apply Nat.eqb_eq; auto).
  rewrite E. eexists. split; [reflexivity|].
  assert (M : forall r, In r members -> map (fun t : list nat * (nat -> list Z) => snd t r) (map (fun k => (members, fun r => nth k (calls r) [])) (seq 0 m)) = calls r).
  { intros r Hr. rewrite map_map. cbn [snd]. rewrite <- (HL' r Hr). apply (nth_ext _ _ [] []).
    - now rewrite map_length, seq_length.
    - rewrite map_length, seq_length. intros k Hk. rewrite (nth_indep _ [] (nth O (calls r) [])) by (rewrite map_length, seq_length; auto).
      rewrite (map_nth (fun k => nth k (calls r) [])), seq_nth by auto. reflexivity. }
  split; [|split; [|split]]; auto.
  - intros t Ht. apply in_map_iff in Ht. destruct Ht as (k & <- & _). reflexivity.
  - intros r Hr. assert (X : memN r members = false) by (destruct (memN r members) eqn:X; auto; apply memN_In in X; contradiction).
    clear - X. generalize (seq 0 m). intros l. induction l as [|k l IH]; cbn [map flat_map]; auto. rewrite IH. unfold addrIn. cbn [fst snd]. now rewrite X.
  - intros r Hr. rewrite <- (M r Hr) at 1. apply memN_In in Hr. clear - Hr. generalize (seq 0 m). intros l.
    induction l as [|k l IH]; cbn [map flat_map concat]; auto. rewrite IH. unfold addrIn at 1. cbn [fst snd]. now rewrite Hr.
Qed.

(** ** Chunks of a contiguous buffer *)

Definition rangeOf (c : Z * Z) : list Z := zrange (fst c) (fst c + snd c).

Lemma sparseGridCalls_spec : forall fuel size chunk sent, 0 < chunk < 2 ^ 31 -> 0 <= sent <= size -> size < 2 ^ 63 ->
  size - sent <= Z.of_nat fuel ->
  exists calls last, sparseGridCalls fuel size chunk sent = Some (calls ++ [last]) /\
    flat_map rangeOf (calls ++ [last]) = zrange sent size /\
    Forall (fun c => snd c = chunk) calls /\ 0 <= snd last < chunk /\ fst last + snd last = size.
Proof.
  induction fuel as [|fuel IH]; intros size chunk sent HC HS HB HF; cbn [sparseGridCalls];
    rewrite (u64_id chunk) by lia; rewrite (u64_id (size - sent)) by lia; (destruct (Z.eqb_spec chunk 0) as [|_]; [lia|]).
  - assert (size = sent) by lia. subst. rewrite Z.sub_diag, Z.div_0_l by lia. cbn [Z.gtb Z.compare].
    exists [], (sent, i32 0). split; auto. cbn [app flat_map fst snd]. unfold rangeOf. cbn [fst snd]. rewrite i32_id by lia. split; [|split; [constructor|lia]].
    rewrite !zrange_nil by lia. reflexivity.
  - rewrite Z.gtb_ltb. destruct (Z.ltb_spec 0 ((size - sent) / chunk)) as [D|D].
    + assert (chunk <= size - sent).
      { destruct (Z_lt_le_dec (size - sent) chunk) as [X|X]; auto. rewrite Z.div_small in D by lia. lia. }
      rewrite u64_id by lia. destruct (IH size chunk (sent + chunk)) as (calls & last & E & C & F & L1 & L2); auto; try lia.
      rewrite E. exists ((sent, i32 chunk) :: calls), last. split; auto. rewrite i32_id by lia. split; [|split; auto].
      cbn [app flat_map]. rewrite C. unfold rangeOf at 1. cbn [fst snd]. symmetry. apply zrange_split. lia.
    + assert (size - sent < chunk).
      { destruct (Z_lt_le_dec (size - sent) chunk) as [X|X]; auto. exfalso.
        assert (1 <= (size - sent) / chunk) by (apply Z.div_le_lower_bound; lia). lia. }
      exists [], (sent, i32 (size - sent)). rewrite i32_id by lia. split; auto. cbn [app flat_map]. unfold rangeOf. cbn [fst snd].
      split; [rewrite app_nil_r; f_equal; lia|]. split; [constructor|lia].
Qed.

(** ** Chunks of subspaces *)

Definition sizeSum (size : Z -> Z) (l : list Z) : Z := zsum (map size l).

Lemma takeChunk_spec : forall size maxChunk rest cur, (forall s, In s rest -> 0 <= size s < 2 ^ 31) -> 0 < maxChunk < 2 ^ 31 -> 0 <= cur < 2 ^ 31 ->
  let (c, r) := takeChunk size maxChunk cur rest in
  c ++ r = rest /\ (c <> [] -> cur + sizeSum size c < maxChunk) /\
  (forall s r', r = s :: r' -> size s = 0 \/ maxChunk <= cur + sizeSum size c + size s) /\ (forall s, In s c -> 0 < size s).
Proof.
  induction rest as [|s rest IH]; intros cur HS HM HC; cbn [takeChunk].
  - split; auto. split; [intros X; contradiction|]. split; [intros s r' X; discriminate|intros s []].
  - pose proof (HS s (or_introl eq_refl)) as Hs. destruct (Z.eqb_spec (size s) 0) as [Z0|Z0].
    + split; auto. split; [intros X; contradiction|]. split; [|intros x []]. intros s' r' X. injection X as <- <-. now left.
    + rewrite u32_id by lia. rewrite u64_id by lia. destruct (Z.ltb_spec (cur + size s) maxChunk) as [L|L].
      * specialize (IH (cur + size s) (fun x H => HS x (or_intror H)) HM ltac:(lia)).
        destruct (takeChunk size maxChunk (cur + size s) rest) as [c r]. destruct IH as (A & B & C & D).
        split; [cbn [app]; now f_equal|]. unfold sizeSum in *. cbn [map]. change (zsum (size s :: map size c)) with (size s + zsum (map size c)). split; [|split].
        -- intros _. destruct c as [|x c]; [change (zsum (map size [])) with 0; lia|]. specialize (B ltac:(discriminate)). lia.
        -- intros s' r' E. specialize (C s' r' E). lia.
        -- intros x [<-|Hx]; [lia|auto].
      * split; auto. split; [intros X; contradiction|]. split; [|intros x []]. intros s' r' X. injection X as <- <-. right. change (sizeSum size []) with 0. lia.
Qed.

Lemma chunked_spec : forall size maxChunk fuel l, (forall s, In s l -> 0 <= size s < 2 ^ 31) -> 0 < maxChunk < 2 ^ 31 -> (length l <= fuel)%nat ->
  concat (chunkedSubspaces fuel size maxChunk l) = l /\
  Forall (fun c => c <> [] /\ (sizeSum size c < maxChunk \/ length c = 1%nat)) (chunkedSubspaces fuel size maxChunk l).
Proof.
  intros size maxChunk. induction fuel as [|fuel IH]; intros l HS HM HF.
  - destruct l; [cbn; auto|cbn in HF; lia].
  - destruct l as [|s rest]; [cbn; auto|]. cbn [chunkedSubspaces].
    pose proof (HS s (or_introl eq_refl)) as Hs. rewrite u32_id, Z.add_0_l by lia.
    pose proof (takeChunk_spec size maxChunk rest (size s) (fun x H => HS x (or_intror H)) HM Hs) as T.
    destruct (takeChunk size maxChunk (size s) rest) as [c r]. destruct T as (A & B & _ & _).
    cbn [length] in HF. assert (LR : length rest = (length c + length r)%nat) by (rewrite <- A; apply app_length).
    destruct (IH r) as [I1 I2]; auto; [intros x Hx; apply HS; right; rewrite <- A; apply in_or_app; now right|lia|].
    cbn [concat]. rewrite I1. cbn [app]. rewrite A. split; auto. constructor; auto. split; [discriminate|].
    destruct c as [|x c]; [now right|]. left. specialize (B ltac:(discriminate)). unfold sizeSum in *. cbn [map].
    change (zsum (size s :: size x :: map size c)) with (size s + zsum (map size (x :: c))). lia.
Qed.
