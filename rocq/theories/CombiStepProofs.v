(** Proofs about the combination step. *)
From Verif Require Import Base TensorModel Level1dModel LevelSetsModel LevelSetsProofs SubspaceModel CombiSchemeModel Hier1dModel Hier1dProofs HierMassProofs
  SparseGridModel SparseGridProofs CombineModel SparseTransferProofs SparseGridProps ReduceModel ReduceProofs VoteProofs SubspaceReduceProofs CombiStepModel.
From Coq Require Import QArith Qcanon.
Open Scope Z_scope.
Ltac Zify.zify_post_hook ::= idtac.

Lemma mapO_spec : forall {A B} (Q : A -> B -> Prop) (f : A -> option B) l, (forall a, In a l -> exists b, f a = Some b /\ Q a b) ->
  exists bs, mapO f l = Some bs /\ Forall2 Q l bs.
Proof.
  intros A B Q f. induction l as [|a l IH]; intros H; [exists []; split; auto|].
  destruct (H a (or_introl eq_refl)) as (b & E & Hq). destruct IH as (bs & Es & F); [intros x Hx; apply H; now right|].
  exists (b :: bs). cbn [mapO]. rewrite E, Es. split; auto.
Qed.

Lemma Forall2_nth_error : forall {A B} (Q : A -> B -> Prop) l l' r a, Forall2 Q l l' -> nth_error l r = Some a -> exists b, nth_error l' r = Some b /\ Q a b.
Proof.
  intros A B Q l l' r a F. revert r. induction F as [|x y l l' H F IH]; intros [|r] E; try discriminate; cbn [nth_error] in *.
  - injection E as <-. exists y. auto.
  - auto.
Qed.
Lemma Forall2_nth_error_r : forall {A B} (Q : A -> B -> Prop) l l' r b, Forall2 Q l l' -> nth_error l' r = Some b -> exists a, nth_error l r = Some a /\ Q a b.
Proof.
  intros A B Q l l' r b F. revert r. induction F as [|x y l l' H F IH]; intros [|r] E; try discriminate; cbn [nth_error] in *.
  - injection E as <-. exists x. auto.
  - auto.
Qed.

Lemma Forall2_imp2 : forall {A B} (Q Q' : A -> B -> Prop) l l', (forall a b, Q a b -> Q' a b) -> Forall2 Q l l' -> Forall2 Q' l l'.
Proof. intros A B Q Q' l l' H F. induction F; constructor; auto. Qed.

(** ** Updating tasks *)
Definition updated (W : list Z -> Z -> Qc) (P : list Z -> Prop) (c c' : Comp) : Prop :=
  c' = withValues c (cValues c') /\
  forall l j, containsL c l -> (j < length (pointsOf c l))%nat -> let k := nth j (pointsOf c l) 0 in
    (P l -> cValues c' k = W l (Z.of_nat j)) /\ (~ P l -> cValues c' k = cValues c k).

Lemma updated_shape : forall W P c c', updated W P c c' -> cGrid c' = cGrid c /\ cCoeff c' = cCoeff c /\ cThreads c' = cThreads c.
Proof. intros W P c c' [E _]. rewrite E. auto. Qed.

Lemma updated_refl : forall W c, updated W (fun _ => False) c c.
Proof. intros W [g q v t]. split; [reflexivity|]. intros l j _ _ k. split; [intros []|reflexivity]. Qed.

Lemma updated_trans : forall W P Q c c' c'', (forall l, Q l \/ ~ Q l) -> updated W P c c' -> updated W Q c' c'' -> updated W (fun l => P l \/ Q l) c c''.
Proof.
  intros W P Q c c' c'' D [E1 H1] [E2 H2]. split; [rewrite E2, E1; reflexivity|]. intros l j Hl Hj k.
  assert (G : cGrid c' = cGrid c) by now rewrite E1. unfold containsL, pointsOf in *. rewrite G in H2.
  destruct (H1 l j Hl Hj) as [A1 A2], (H2 l j Hl Hj) as [B1 B2]. split.
  - intros X. destruct (D l) as [Y|Y]; [auto|]. unfold k. rewrite B2 by auto. apply A1. tauto.
  - intros X. unfold k. rewrite B2 by tauto. apply A2. tauto.
Qed.

Lemma updated_ext : forall W P Q c c', (forall l, containsL c l -> (0 < length (pointsOf c l))%nat -> (P l <-> Q l)) -> updated W P c c' -> updated W Q c c'.
Proof.
  intros W P Q c c' H [E U]. split; auto. intros l j Hl Hj k. destruct (U l j Hl Hj) as [A B]. specialize (H l Hl ltac:(lia)). split; intros X; [apply A|apply B]; tauto.
Qed.
Lemma updated_extW : forall W W' (P : list Z -> Prop) c c', (forall l j, P l -> containsL c l -> (j < length (pointsOf c l))%nat -> W l (Z.of_nat j) = W' l (Z.of_nat j)) -> updated W P c c' -> updated W' P c c'.
Proof.
  intros W W' P c c' H [E U]. split; auto. intros l j Hl Hj k. destruct (U l j Hl Hj) as [A B]. split; auto. intros X. rewrite <- H by auto. now apply A.
Qed.

Lemma contribution_updated : forall W P c c' l j, updated W P c c' -> ~ P l -> containsL c l -> 0 <= j < Z.of_nat (length (pointsOf c l)) ->
  contribution l j c' = contribution l j c.
Proof.
  intros W P c c' l j [E U] N Hl Hj. unfold contribution. assert (G : cGrid c' = cGrid c) by now rewrite E. assert (K : cCoeff c' = cCoeff c) by now rewrite E.
  rewrite G, K. destruct (vleb l _); auto. f_equal. unfold pointsOf. rewrite G. apply U; auto. lia.
Qed.

Lemma qsum_zero : forall {A} (f : A -> Qc) l, (forall x, In x l -> f x = 0%Qc) -> qsum (map f l) = 0%Qc.
Proof.
  intros A f. induction l as [|x l IH]; intros H; auto. cbn [map]. change (qsum (?a :: ?b)) with (a + qsum b)%Qc. rewrite H by now left.
  rewrite IH by (intros y Hy; apply H; now right). ring.
Qed.
Lemma qsum_filter : forall {A} (f : A -> Qc) p l, (forall x, In x l -> p x = false -> f x = 0%Qc) -> qsum (map f (filter p l)) = qsum (map f l).
Proof.
  intros A f p. induction l as [|x l IH]; intros H; auto. cbn [filter map]. change (qsum (f x :: map f l)) with (f x + qsum (map f l))%Qc.
  rewrite <- IH by (intros y Hy; apply H; now right). destruct (p x) eqn:E; [reflexivity|]. rewrite (H x) by (auto; now left). ring.
Qed.
Lemma qsum_ext : forall {A} (f g : A -> Qc) l, (forall x, In x l -> f x = g x) -> qsum (map f l) = qsum (map g l).
Proof. intros A f g l H. f_equal. now apply map_ext_in. Qed.

(** The tasks of group [r]. *)
Definition tasksAt (gs : list Group) (r : nat) : list Comp := match nth_error gs r with Some g => gTasks g | None => [] end.
Definition commsAt (gs : list Group) (r : nat) : list (list nat * list Z) := match nth_error gs r with Some g => gComms g | None => [] end.
Definition sizeAt (gs : list Group) (r : nat) (i : Z) : Z := match nth_error gs r with Some g => dataSize (gDsg g) i | None => 0 end.
Definition allTasks (gs : list Group) : list Comp := flat_map gTasks gs.

Lemma sum_groups : forall (f : Comp -> Qc) gs, qsum (map (fun r => qsum (map f (tasksAt gs r))) (seq 0 (length gs))) = qsum (map f (allTasks gs)).
Proof.
  intros f. induction gs as [|g gs IH]; auto. unfold allTasks. cbn [length seq map flat_map]. rewrite map_app, qsum_app, <- seq_shift, map_map.
  change (qsum (?a :: ?b)) with (a + qsum b)%Qc. f_equal. exact IH.
Qed.

Lemma nth_error_lt : forall {A} (l : list A) r, (r < length l)%nat -> exists a, nth_error l r = Some a.
Proof. intros A l r H. destruct (nth_error l r) eqn:E; eauto. apply nth_error_None in E. lia. Qed.

Lemma nth_seq_map : forall {A} (l : list A) d, map (fun k => nth k l d) (seq 0 (length l)) = l.
Proof. intros A. induction l as [|x l IH]; intros d; auto. cbn [length seq map nth]. f_equal. rewrite <- seq_shift, map_map. apply IH. Qed.

Lemma sorted_filter : forall p l, StronglySorted Z.lt l -> StronglySorted Z.lt (filter p l).
Proof.
  intros p. induction l as [|x l IH]; intros S; auto. apply StronglySorted_inv in S. destruct S as [S F]. cbn [filter]. destruct (p x); auto. constructor; auto.
  apply Forall_forall. intros y Hy. apply filter_In in Hy. rewrite Forall_forall in F. now apply F.
Qed.

Lemma combine_repeat : forall {A B} (x : A) (l : list B), combine (repeat x (length l)) l = map (fun b => (x, b)) l.
Proof. intros A B x. induction l as [|b l IH]; auto. cbn. now rewrite IH. Qed.

Lemma Forall2_In_l : forall {A B} (Q : A -> B -> Prop) l l' a, Forall2 Q l l' -> In a l -> exists b, In b l' /\ Q a b.
Proof. intros A B Q l l' a F H. apply In_nth_error in H. destruct H as (k & E). destruct (Forall2_nth_error _ _ _ _ _ F E) as (b & Eb & H). exists b. split; auto. eapply nth_error_In; eauto. Qed.

Lemma Forall2_In_r : forall {A B} (Q : A -> B -> Prop) l l' b, Forall2 Q l l' -> In b l' -> exists a, In a l /\ Q a b.
Proof. intros A B Q l l' b F H. apply In_nth_error in H. destruct H as (k & E). destruct (Forall2_nth_error_r _ _ _ _ _ F E) as (a & Ea & H). exists a. split; auto. eapply nth_error_In; eauto. Qed.

Lemma combine_seq_In : forall {A} (l : list A) a r g, In (r, g) (combine (seq a (length l)) l) -> exists k, r = (a + k)%nat /\ nth_error l k = Some g.
Proof.
  intros A. induction l as [|x l IH]; intros a r g H; [destruct H|]. cbn [length seq combine] in H. destruct H as [H|H].
  - injection H as <- <-. exists O. split; [lia|reflexivity].
  - apply IH in H. destruct H as (k & -> & E). exists (Datatypes.S k). split; [lia|exact E].
Qed.

Lemma Forall2_combine_seq : forall {A B} (Q : nat * A -> B -> Prop) (Q' : A -> B -> Prop) l bs a, Forall2 Q (combine (seq a (length l)) l) bs ->
  (forall r g b, Q (r, g) b -> Q' g b) -> Forall2 Q' l bs.
Proof.
  intros A B Q Q'. induction l as [|x l IH]; intros bs a F H; cbn [length seq combine] in F; inversion F; subst; constructor; eauto.
Qed.

Lemma sum_single : forall (f : Comp -> Qc) gs r g, nth_error gs r = Some g -> (forall r' c, r' <> r -> In c (tasksAt gs r') -> f c = 0%Qc) ->
  qsum (map f (gTasks g)) = qsum (map f (allTasks gs)).
Proof.
  intros f gs r g Eg H. rewrite <- sum_groups. assert (Hr : (r < length gs)%nat) by (apply nth_error_Some; congruence).
  rewrite <- (qsum_filter _ (fun r' => Nat.eqb r' r) (seq 0 (length gs))).
  - assert (F : filter (fun r' => Nat.eqb r' r) (seq 0 (length gs)) = [r]).
    { assert (FF : forall m a, (a <= r < a + m)%nat -> filter (fun r' => Nat.eqb r' r) (seq a m) = [r]).
      { induction m as [|m IHm]; intros a Ha; [lia|]. cbn [seq filter]. destruct (Nat.eqb_spec a r) as [->|N].
        - f_equal. assert (FN : forall m' a', (r < a')%nat -> filter (fun r' => Nat.eqb r' r) (seq a' m') = []).
          { induction m' as [|m' IH']; intros a' Ha'; auto. cbn [seq filter]. destruct (Nat.eqb_spec a' r); [lia|]. apply IH'. lia. }
          apply FN. lia.
        - apply IHm. lia. }
      apply FF. lia. }
    rewrite F. cbn [map]. unfold tasksAt. rewrite Eg. change (qsum [?x]) with (x + 0)%Qc. ring.
  - intros r' Hr'' Pf. apply Nat.eqb_neq in Pf. apply qsum_zero. intros c Hc. now apply (H r').
Qed.

Section Step.
Variables (dim : nat) (rest : list (list Z)).
Let levels := repeat 1 dim :: rest.
Hypothesis HL : sortedLevels dim levels.
Hypothesis HP : Forall (Forall (Z.le 1)) levels.
Let n := Z.of_nat (length levels).
Let lvl (i : Z) := nth (Z.to_nat i) levels [].
Variable cnt : list Z -> Z.
Hypothesis Hcnt : forall q, 0 <= cnt q < 2 ^ 32.

Definition tasksOk (cs : list Comp) : Prop :=
  Forall (goodComp dim) cs /\ forall c l, In c cs -> containsL c l -> Z.of_nat (length (pointsOf c l)) = cnt l.
Definition sizesOk (cs : list Comp) (d : DSG) : Prop :=
  forall c i, In c cs -> 0 <= i < n -> containsL c (lvl i) -> dataSize d i = cnt (lvl i).

Lemma tasksOk_updated : forall W P cs cs', tasksOk cs -> Forall2 (updated W P) cs cs' -> tasksOk cs'.
Proof.
  intros W P cs cs' [G C] F. induction F as [|c c' cs cs' U F IH]; [split; auto|]. inv G.
  destruct (IH H2) as [G' C']; [intros x l Hx; apply C; now right|]. destruct U as [E U]. split.
  - constructor; auto. rewrite E. exact H1.
  - intros x l [<-|Hx] Hl; [|now apply C']. rewrite E in *. apply (C c l); auto. now left.
Qed.
Lemma sizesOk_updated : forall W P cs cs' d, sizesOk cs d -> Forall2 (updated W P) cs cs' -> sizesOk cs' d.
Proof.
  intros W P cs cs' d S F c' i Hc Hi Hl. apply In_nth_error in Hc. destruct Hc as (k & Ek).
  destruct (Forall2_nth_error_r _ _ _ _ _ F Ek) as (c & Ec & U). apply (S c); auto; [now apply nth_error_In in Ec|].
  destruct U as [E _]. now rewrite E in Hl.
Qed.

Lemma addAll_local : forall fully cs d, ready levels d -> (forall k, dData d k = 0%Qc) -> tasksOk cs -> sizesOk cs d ->
  (fully = true -> forall i, 0 <= i < n -> In i (dWith d)) ->
  exists d', addAll fully levels cs d = Some d' /\ sameShape d d' /\ kzero d' /\
    forall i j, 0 <= i < n -> In i (dWith d) -> 0 <= j < dataSize d i -> dData d' (off d i + j) = weightedSum cs (lvl i) j.
Proof.
  intros fully cs d R Z0 [G C] S HF. destruct (addAll_spec dim rest HL HP fully cs d R G HF) as (d' & E & Sh & K & V).
  { intros c i Hc Hi Hl _ _. rewrite (S c i Hc Hi Hl). now apply C. }
  exists d'. split; auto. split; auto. split; auto. intros i j Hi HW Hj. fold levels lvl in V. rewrite V by auto. rewrite Z0. unfold weightedSum.
  change (nth (Z.to_nat i) levels []) with (lvl i). ring.
Qed.

Lemma distribute_spec : forall fully d g W, ready levels d -> tasksOk (gTasks g) -> sizesOk (gTasks g) d ->
  (fully = true -> forall i, 0 <= i < n -> In i (dWith d)) ->
  (forall i j c, 0 <= i < n -> In i (dWith d) -> 0 <= j < dataSize d i -> In c (gTasks g) -> containsL c (lvl i) -> dData d (off d i + j) = W (lvl i) j) ->
  exists ts, distribute fully levels d g = Some {| gTasks := ts; gDsg := d; gComms := gComms g |} /\
    Forall2 (updated W (fun l => In l levels /\ In (position levels l) (dWith d))) (gTasks g) ts.
Proof.
  intros fully d g W R [G C] S HF HV.
  assert (X : forall c, In c (gTasks g) -> exists v, extractDFG fully levels (cThreads c) d (cGrid c) (cValues c) = Some v /\
     updated W (fun l => In l levels /\ In (position levels l) (dWith d)) c (withValues c v)).
  { intros c Hc. rewrite Forall_forall in G. destruct (extract_spec dim rest HL fully d c (cValues c) R (G c Hc) HF) as (v & E & V1 & V2).
    { intros i Hi Hl _ _. rewrite (S c i Hc Hi Hl). now apply C. }
    assert (V1' : forall i j, 0 <= i < n -> containsL c (lvl i) -> In i (dWith d) -> 0 <= j < dataSize d i ->
      v (nth (Z.to_nat j) (pointsOf c (lvl i)) 0) = dData d (off d i + j)) by exact V1. clear V1. fold levels in V2.
    exists v. split; auto. split; [reflexivity|]. intros l j Hl Hj k. cbn [withValues cValues]. split.
    - intros [Hin HW]. destruct (position_In levels l Hin) as [P1 P2]. change (0 <= position levels l < n) in P1. change (lvl (position levels l) = l) in P2.
      assert (DS : dataSize d (position levels l) = Z.of_nat (length (pointsOf c l))).
      { rewrite (S c _ Hc P1) by (now rewrite P2). rewrite P2. symmetry. now apply C. }
      specialize (V1' (position levels l) (Z.of_nat j) P1). rewrite P2, Nat2Z.id in V1'. unfold k.
      rewrite V1' by (auto; lia). rewrite (HV _ _ c) by (auto; try lia; rewrite P2; auto). now rewrite P2.
    - intros HN. apply (V2 l); auto; [now apply nth_In|]. destruct (in_dec (list_eq_dec Z.eq_dec) l levels) as [Y|Y]; [|now left].
      right. left. tauto. }
  unfold distribute. destruct (extractAll_Forall2 dim rest fully d (gTasks g) G) as (ts & E & F).
  { intros c Hc. destruct (X c Hc) as (v & Ev & _). now exists v. }
  fold levels in E, F. rewrite E. exists ts. split; auto. clear E G C S HV. revert X F. generalize (gTasks g). intros cs X F. induction F as [|c c' cs cs' [E1 E2] F IH]; constructor.
  - destruct (X c (or_introl eq_refl)) as (v & Ev & U). rewrite E2. rewrite Ev in E1. injection E1 as <-. exact U.
  - apply IH. intros x Hx. apply X. now right.
Qed.

(** ** Sparse grids of the variants that keep all subspaces *)
Definition dsgOk (d : DSG) : Prop :=
  dsgInv (length levels) d /\ (dLen d = 0 -> dKLen d = 0) /\ (dLen d <> 0 -> ready levels d) /\ chosen d = zrange 0 n /\ zsum (dSizes d) < 2 ^ 31.

Lemma zero_spec : forall esz d, dsgOk d -> let d' := zeroDsgData esz d in
  ready levels d' /\ dSizes d' = dSizes d /\ dWith d' = zrange 0 n /\ (forall k, dData d' k = 0%Qc) /\ dLen d' = zsum (dSizes d).
Proof.
  intros esz d (I & K0 & R & C & T). cbv zeta. unfold zeroDsgData. pose proof I as (LS & _).
  assert (AC : accumulatedSize (dSizes d) (zrange 0 n) = zsum (dSizes d)) by (unfold n; rewrite <- LS; apply accumulated_all).
  destruct (Z.eqb_spec (dLen d) 0) as [E|E].
  - destruct (create_ready dim rest esz d I (K0 E)) as (R' & S & W & D); [rewrite C, AC; lia|]. fold levels in R'.
    split; [now apply setZero_ready|]. cbn [setZero dSizes dWith dData dLen]. split; auto. split; [congruence|]. split; [reflexivity|].
    destruct R' as (_ & LD & _). destruct LD as [_ LD]. rewrite LD, S, W, C. exact AC.
  - specialize (R E). split; [now apply setZero_ready|]. cbn [setZero dSizes dWith dData dLen]. split; auto.
    destruct R as (_ & LD & _). destruct LD as [_ LD].
    assert (W : dWith d = zrange 0 n).
    { unfold chosen in C. destruct (dWith d) as [|w ws] eqn:DW; auto. rewrite accumulated_nil in LD. contradiction. }
    split; auto. split; [reflexivity|]. rewrite LD, W. exact AC.
Qed.

Lemma ready_dsgOk : forall d, ready levels d -> dWith d = zrange 0 n -> zsum (dSizes d) < 2 ^ 31 -> dsgOk d.
Proof.
  intros d R W T. pose proof R as (I & LD & LK & _). split; auto. split.
  - intros E. destruct LD as [_ LD], LK as [_ LK]. congruence.
  - split; auto. split; auto. unfold chosen. rewrite W. unfold numSubspaces. destruct I as (LS & _). rewrite LS. fold n.
    now destruct (zrange 0 n).
Qed.

Definition groupOk (g : Group) : Prop := tasksOk (gTasks g) /\ dsgOk (gDsg g) /\ sizesOk (gTasks g) (gDsg g).

Lemma notContained_zero : forall cs i j, Forall (goodComp dim) cs -> 0 <= i < n -> (forall c, In c cs -> ~ containsL c (lvl i)) -> weightedSum cs (lvl i) j = 0%Qc.
Proof.
  intros cs i j G Hi H. unfold weightedSum. apply qsum_zero. intros c Hc. unfold contribution. rewrite Forall_forall in G.
  destruct (vleb (lvl i) (gLevel (cGrid c))) eqn:E; auto. exfalso. apply (H c Hc). apply (lvl_contains dim rest HL HP c i); auto.
Qed.

(** The communicators stored by the groups match, join all groups that have tasks with their subspaces, and leave out only
    subspaces of a single group. *)
Definition commsOk (gs : list Group) : Prop :=
  (forall r M is, In (M, is) (commsAt gs r) -> StronglySorted Z.lt is /\ (forall i, In i is -> 0 <= i < n)) /\
  (forall r, NoDup (map fst (commsAt gs r))) /\
  (forall r M is M' is' i, In (M, is) (commsAt gs r) -> In (M', is') (commsAt gs r) -> In i is -> In i is' -> M = M') /\
  (forall r M is, In (M, is) (commsAt gs r) -> In r M /\ forall r', In r' M -> In (M, is) (commsAt gs r') /\ forall i, In i is -> sizeAt gs r' i = sizeAt gs r i) /\
  (forall r M is, In (M, is) (commsAt gs r) -> exists p, M = filter p (seq 0 (length gs))) /\
  (forall r M is i r' c, In (M, is) (commsAt gs r) -> In i is -> ~ In r' M -> In c (tasksAt gs r') -> ~ containsL c (lvl i)) /\
  (forall r i r' c c0, 0 <= i < n -> (forall M is, In (M, is) (commsAt gs r) -> ~ In i is) -> r' <> r -> In c0 (tasksAt gs r) -> containsL c0 (lvl i) -> 0 < cnt (lvl i) ->
     In c (tasksAt gs r') -> ~ containsL c (lvl i)).

Definition sameSizes (gs : list Group) : Prop := forall r r' g g', nth_error gs r = Some g -> nth_error gs r' = Some g' -> dSizes (gDsg g) = dSizes (gDsg g').

Definition orderOk (gs : list Group) (order : list (list nat)) : Prop := NoDup order /\ forall r M is, In (M, is) (commsAt gs r) -> In M order.

(** What one reduction has to leave in the sparse grids. *)
Definition reduced (gs : list Group) (ds ds' : nat -> DSG) : Prop :=
  (forall r, sameShape (ds r) (ds' r) /\ dKahan (ds' r) = dKahan (ds r)) /\
  (forall r i j c, (r < length gs)%nat -> 0 <= i < n -> 0 <= j < dataSize (ds r) i -> In c (tasksAt gs r) -> containsL c (lvl i) ->
     dData (ds' r) (off (ds r) i + j) = weightedSum (allTasks gs) (lvl i) j).

Definition locallyReduced (gs : list Group) (ds : nat -> DSG) : Prop :=
  forall r g, nth_error gs r = Some g ->
    ready levels (ds r) /\ dSizes (ds r) = dSizes (gDsg g) /\ dWith (ds r) = zrange 0 n /\ dLen (ds r) = zsum (dSizes (gDsg g)) /\
    forall i j, 0 <= i < n -> 0 <= j < dataSize (ds r) i -> dData (ds r) (off (ds r) i + j) = weightedSum (gTasks g) (lvl i) j.


Lemma sparseGrid_reduced : forall gs ds mc, Forall groupOk gs -> sameSizes gs -> locallyReduced gs ds -> 0 < mc < 2 ^ 31 ->
  exists ds', sparseGridReduce (length gs) mc ds = Some ds' /\ reduced gs ds ds'.
Proof.
  intros gs ds mc G S LR HMC. destruct gs as [|g0 gs0] eqn:EG.
  - destruct (sparseGridReduce_spec 0 mc ds 0 HMC ltac:(lia)) as (ds' & E & A & B); [intros q Hq; lia|]. exists ds'. split; auto. split; auto. intros r i j c Hr. cbn in Hr. lia.
  - rewrite <- EG in *. assert (E0 : nth_error gs 0 = Some g0) by now rewrite EG.
    set (len := zsum (dSizes (gDsg g0))).
    assert (T : 0 <= len < 2 ^ 31).
    { rewrite Forall_forall in G. destruct (G g0 (nth_error_In _ _ E0)) as (_ & (I & _ & _ & _ & T) & _). split; [|exact T].
      destruct I as (_ & I & _). unfold len. clear - I. induction (dSizes (gDsg g0)) as [|x l IH]; [apply Z.le_refl|]. pose proof (Forall_inv I) as X. cbv beta in X. specialize (IH (Forall_inv_tail I)). change (zsum (x :: l)) with (x + zsum l). lia. }
    assert (HLen : forall r, (r < length gs)%nat -> dLen (ds r) = len).
    { intros r Hr. destruct (nth_error_lt gs r Hr) as (g & Eg). destruct (LR r g Eg) as (_ & _ & _ & L & _). rewrite L. unfold len. f_equal. now apply (S r O). }
    destruct (sparseGridReduce_spec (length gs) mc ds len HMC ltac:(lia) HLen) as (ds' & E & A & B).
    exists ds'. split; auto. split; auto. intros r i j c Hr Hi Hj Hc Hl. destruct (nth_error_lt gs r Hr) as (g & Eg).
    destruct (LR r g Eg) as (R & DS & DW & L & V).
    assert (SO : forall r' g', nth_error gs r' = Some g' -> off (ds r') i = off (ds r) i /\ dataSize (ds r') i = dataSize (ds r) i).
    { intros r' g' Eg'. destruct (LR r' g' Eg') as (_ & DS' & DW' & _ & _). unfold off, dataSize. rewrite DW, DW', DS, DS'. rewrite (S r' r g' g) by auto. auto. }
    assert (IW : In i (dWith (ds r))) by (rewrite DW; now apply zrange_In).
    pose proof (off_bound levels (ds r) i R IW Hi) as OB. destruct (ready_ptr levels (ds r) R i Hi) as (_ & _ & P0).
    rewrite B by (auto; rewrite <- (HLen r Hr); lia). unfold weightedSum. rewrite <- sum_groups. apply qsum_ext. intros r' Hr'. apply in_seq in Hr'.
    destruct (nth_error_lt gs r' ltac:(lia)) as (g' & Eg'). destruct (LR r' g' Eg') as (_ & _ & _ & _ & V'). destruct (SO r' g' Eg') as [O1 O2].
    rewrite <- O1. rewrite V' by (auto; lia). unfold tasksAt. rewrite Eg'. reflexivity.
Qed.

Lemma subspace_reduced : forall gs ds mc order, Forall groupOk gs -> commsOk gs -> orderOk gs order -> locallyReduced gs ds -> 0 < mc < 2 ^ 31 ->
  exists ds', subspaceReduce mc order (commsAt gs) ds = Some ds' /\ reduced gs ds ds'.
Proof.
  intros gs ds mc order G (C1 & C2 & C3 & C4 & C5 & C6 & C7) [OD OI] LR HMC.
  assert (EX : forall r M is, In (M, is) (commsAt gs r) -> exists g, nth_error gs r = Some g).
  { intros r M is H. unfold commsAt in H. destruct (nth_error gs r) as [g|]; [eauto|destruct H]. }
  assert (GO : forall r g, nth_error gs r = Some g -> groupOk g) by (intros r g Eg; rewrite Forall_forall in G; apply G; now apply nth_error_In in Eg).
  assert (DSZ : forall r g i, nth_error gs r = Some g -> dataSize (ds r) i = sizeAt gs r i).
  { intros r g i Eg. destruct (LR r g Eg) as (_ & DS & _). unfold sizeAt. rewrite Eg. unfold dataSize. now rewrite DS. }
  destruct (subspaceReduce_spec levels mc (commsAt gs) ds HMC) with (order := order) as (ds' & E & A & B & D); auto.
  - intros r M is H. destruct (EX r M is H) as (g & Eg). destruct (LR r g Eg) as (R & _ & _ & L & _). split; auto. rewrite L.
    destruct (GO r g Eg) as (_ & (_ & _ & _ & _ & T) & _). exact T.
  - intros r M is H. destruct (EX r M is H) as (g & Eg). destruct (LR r g Eg) as (_ & _ & DW & _). destruct (C1 r M is H) as [S X]. split; auto.
    intros i Hi. specialize (X i Hi). split; auto. rewrite DW. now apply zrange_In.
  - intros r M is H. destruct (C4 r M is H) as [Hr X]. split; auto. intros r' Hr'. destruct (X r' Hr') as [H' Y]. split; auto. intros i Hi.
    destruct (EX r M is H) as (g & Eg). destruct (EX r' M is H') as (g' & Eg'). rewrite (DSZ r g) by auto. rewrite (DSZ r' g') by auto. auto.
  - exists ds'. split; auto. split; auto. intros r i j c Hr Hi Hj Hc Hl. destruct (nth_error_lt gs r Hr) as (g & Eg).
    destruct (LR r g Eg) as (R & DS & DW & L & V).
    assert (GC : forall r', Forall (goodComp dim) (tasksAt gs r')).
    { intros r'. unfold tasksAt. destruct (nth_error gs r') as [g'|] eqn:E'; [|constructor]. apply (GO r' g' E'). }
    assert (CN : dataSize (ds r) i = cnt (lvl i)).
    { destruct (GO r g Eg) as (_ & _ & SO). unfold dataSize. rewrite DS. apply (SO c i); auto. unfold tasksAt in Hc. now rewrite Eg in Hc. }
    destruct (in_dec Z.eq_dec i (flat_map snd (commsAt gs r))) as [IN|NI].
    + apply in_flat_map in IN. destruct IN as ([M is] & H & Hi'). cbn [snd] in Hi'. rewrite (B r M is i j H Hi' Hj).
      destruct (C4 r M is H) as [Hr' X]. destruct (C5 r M is H) as (p & EM). unfold weightedSum. rewrite <- sum_groups.
      rewrite <- (qsum_filter _ p (seq 0 (length gs))).
      * rewrite <- EM. apply qsum_ext. intros r' Hr''. destruct (X r' Hr'') as [H' Y]. destruct (EX r' M is H') as (g' & Eg').
        destruct (LR r' g' Eg') as (_ & _ & _ & _ & V'). rewrite V'; auto; [unfold tasksAt; now rewrite Eg'|].
        rewrite (DSZ r' g' i Eg'), (Y i Hi'), <- (DSZ r g i Eg). exact Hj.
      * intros r' Hr'' Pf. apply (notContained_zero (tasksAt gs r') i j); auto. intros c' Hc'. apply (C6 r M is i r' c'); auto.
        rewrite EM. intros X'. apply filter_In in X'. destruct X'. congruence.
    + assert (NO : forall M is, In (M, is) (commsAt gs r) -> ~ In i is) by (intros M is H Hi'; apply NI; apply in_flat_map; exists (M, is); auto).
      rewrite D; auto; [|rewrite DW; now apply zrange_In]. rewrite V by auto. unfold weightedSum at 2. rewrite <- sum_groups.
      rewrite <- (qsum_filter _ (fun r' => Nat.eqb r' r) (seq 0 (length gs))).
      * assert (F : filter (fun r' => Nat.eqb r' r) (seq 0 (length gs)) = [r]).
        { assert (FF : forall m a, (a <= r < a + m)%nat -> filter (fun r' => Nat.eqb r' r) (seq a m) = [r]).
          { induction m as [|m IHm]; intros a Ha; [lia|]. cbn [seq filter]. destruct (Nat.eqb_spec a r) as [->|N].
            - f_equal. assert (FN : forall m' a', (r < a')%nat -> filter (fun r' => Nat.eqb r' r) (seq a' m') = []).
              { induction m' as [|m' IH']; intros a' Ha'; auto. cbn [seq filter]. destruct (Nat.eqb_spec a' r); [lia|]. apply IH'. lia. }
              apply FN. lia.
            - apply IHm. lia. }
          apply FF. lia. }
        rewrite F. cbn [map]. unfold tasksAt. rewrite Eg. change (qsum [?x]) with (x + 0)%Qc. unfold weightedSum. ring.
      * intros r' Hr'' Pf. apply Nat.eqb_neq in Pf. apply (notContained_zero (tasksAt gs r') i j); auto. intros c' Hc'. apply (C7 r i r' c' c); auto. lia.
Qed.

(** What one combination step does to one group. *)
Definition stepped (W : list Z -> Z -> Qc) (P : list Z -> Prop) (g g' : Group) : Prop :=
  Forall2 (updated W P) (gTasks g) (gTasks g') /\ dSizes (gDsg g') = dSizes (gDsg g) /\ gComms g' = gComms g.

Lemma sizesOk_sizes : forall cs d d', sizesOk cs d -> dSizes d' = dSizes d -> sizesOk cs d'.
Proof. intros cs d d' S E c i Hc Hi Hl. unfold dataSize. rewrite E. now apply (S c i). Qed.


Lemma step_spec : forall v gs esz mc order, Forall groupOk gs -> 0 < mc < 2 ^ 31 ->
  match v with VSparseGrid => sameSizes gs | _ => commsOk gs /\ orderOk gs order end ->
  exists gs', reduceAndDistribute v esz mc order levels gs = Some gs' /\
    Forall2 (fun g g' => stepped (weightedSum (allTasks gs)) (fun l => In l levels) g g' /\ groupOk g') gs gs'.
Proof.
  intros v gs esz mc order G HMC HV. unfold reduceAndDistribute.
  destruct (mapO_spec (fun g d => ready levels d /\ dSizes d = dSizes (gDsg g) /\ dWith d = zrange 0 n /\ dLen d = zsum (dSizes (gDsg g)) /\
    forall i j, 0 <= i < n -> 0 <= j < dataSize d i -> dData d (off d i + j) = weightedSum (gTasks g) (lvl i) j)
    (fun g => addAll true levels (gTasks g) (zeroDsgData esz (gDsg g))) gs) as (ds & E & F).
  { intros g Hg. rewrite Forall_forall in G. destruct (G g Hg) as (T & D & S). destruct (zero_spec esz (gDsg g) D) as (R & ES & EW & ED & EL).
    destruct (addAll_local true (gTasks g) (zeroDsgData esz (gDsg g)) R ED T) as (d' & E & Sh & K & V).
    - now apply (sizesOk_sizes _ (gDsg g)).
    - intros _ i Hi. rewrite EW. now apply zrange_In.
    - exists d'. split; auto. pose proof Sh as (S1 & S2 & _ & S4 & _). split; [now apply (ready_same levels _ d' R)|]. split; [congruence|]. split; [congruence|].
      split; [congruence|]. intros i j Hi Hj. unfold off, dataSize in *. rewrite S1, S2 in *. apply V; auto. rewrite EW. now apply zrange_In. }
  rewrite E.
  assert (LR : locallyReduced gs (dsgAt ds)).
  { intros r g Eg. destruct (Forall2_nth_error _ _ _ _ _ F Eg) as (d & Ed & H). unfold dsgAt. rewrite (nth_error_nth ds r (initDSG 0) Ed). exact H. }
  assert (RD : exists ds', match v with
             | VSparseGrid => sparseGridReduce (length gs) mc (dsgAt ds)
             | _ => subspaceReduce mc order (fun r => match nth_error gs r with Some g => gComms g | None => [] end) (dsgAt ds)
             end = Some ds' /\ reduced gs (dsgAt ds) ds').
  { destruct v; try (apply subspace_reduced; tauto). now apply sparseGrid_reduced. }
  destruct RD as (ds' & E' & RS & RV). rewrite E'. unfold distributeAll.
  destruct (mapO_spec (fun rg g' => stepped (weightedSum (allTasks gs)) (fun l => In l levels) (snd rg) g' /\ groupOk g')
    (fun rg : nat * Group => distribute true levels (ds' (fst rg)) (snd rg)) (combine (seq 0 (length gs)) gs)) as (gs' & E2 & F2).
  { intros [r g] H. apply combine_seq_In in H. destruct H as (k & -> & Eg). cbn [Nat.add fst snd]. rewrite Forall_forall in G.
    destruct (G g (nth_error_In _ _ Eg)) as (T & D & S). destruct (LR k g Eg) as (R & ES & EW & EL & V). destruct (RS k) as [Sh EK].
    assert (R' : ready levels (ds' k)). { apply (ready_same levels (dsgAt ds k)); auto. intros x Hx. rewrite EK. destruct R as (_ & _ & _ & _ & K). now apply K. }
    pose proof Sh as (S1 & S2 & _ & S4 & _).
    destruct (distribute_spec true (ds' k) g (weightedSum (allTasks gs)) R' T) as (ts & E3 & F3).
    - apply (sizesOk_sizes _ (gDsg g)); auto. congruence.
    - intros _ i Hi. rewrite S2, EW. now apply zrange_In.
    - intros i j c Hi Hw Hj Hc Hl. unfold off, dataSize in *. rewrite S1, S2 in *. apply (RV k i j c); auto; [|unfold tasksAt; now rewrite Eg].
      apply nth_error_Some. congruence.
    - exists {| gTasks := ts; gDsg := ds' k; gComms := gComms g |}. split; auto.
      assert (F4 : Forall2 (updated (weightedSum (allTasks gs)) (fun l => In l levels)) (gTasks g) ts).
      { eapply Forall2_imp2; [|exact F3]. intros c c' U. apply (updated_ext _ _ _ _ _) with (2 := U). intros l _ _. cbv beta. split; [tauto|].
        intros Hl. split; auto. rewrite S2, EW. apply zrange_In. now apply position_In. }
      split; [split; [exact F4|]; cbn [gDsg gComms]; split; [congruence|reflexivity]|]. split; [|split]; cbn [gTasks gDsg].
      + now apply (tasksOk_updated _ _ _ _ T F4).
      + apply ready_dsgOk; auto; [congruence|]. rewrite S1, ES. apply D.
      + apply (sizesOk_updated _ _ _ _ (ds' k)) with (2 := F4). apply (sizesOk_sizes _ (gDsg g)); auto. congruence. }
  rewrite E2. exists gs'. split; auto. apply (Forall2_combine_seq _ _ _ _ _ F2). intros r g b H. exact H.
Qed.

(** ** The chunked variant *)
Definition chunkGroupOk (g : Group) : Prop :=
  tasksOk (gTasks g) /\ dsgInv (length levels) (gDsg g) /\ kzero (gDsg g) /\ sizesOk (gTasks g) (gDsg g) /\
  Forall (fun s => s < 2 ^ 31) (dSizes (gDsg g)).

Lemma allocate_ready : forall esz w d, dsgInv (length levels) d -> kzero d -> goodSet n w -> w <> [] -> accumulatedSize (dSizes d) w < 2 ^ 32 ->
  let d' := allocateDifferentSubspaces esz w d in
  ready levels d' /\ dSizes d' = dSizes d /\ dWith d' = w /\ (forall k, dData d' k = 0%Qc) /\ dLen d' = accumulatedSize (dSizes d) w.
Proof.
  intros esz w d I K G N A d'. pose proof (allocate_inv _ esz w d I G) as I'. change (dsgInv (length levels) d') in I'.
  set (d1 := {| dSizes := dSizes d; dWith := w; dPtr := dPtr d; dLen := dLen d; dData := dData d; dKPtr := dKPtr d; dKLen := dKLen d; dKahan := dKahan d |}).
  assert (C1 : chosen d1 = w) by (unfold chosen, d1; cbn [dWith]; destruct w; [contradiction|reflexivity]).
  set (d2 := createSubspaceData esz d1).
  assert (F : dSizes d2 = dSizes d /\ dWith d2 = w /\ dPtr d2 = layout (dSizes d) 0 0 w /\ dLen d2 = accumulatedSize (dSizes d) w /\ (forall k, dData d2 k = 0%Qc) /\ kzero d2).
  { unfold d2, createSubspaceData. cbv zeta. rewrite C1. cbn [dKLen d1 dSizes dKPtr dKahan]. destruct (dKLen d =? 0).
    - unfold createKahanBuffer. cbn [dSizes dWith dPtr dLen dData dKahan dKLen]. split; auto. split; [unfold chosen; cbn [dWith]; destruct w; [contradiction|reflexivity]|].
      split; auto. split; auto. split; [reflexivity|]. intros k Hk. cbn [dKahan]. destruct (_ <=? _); auto. unfold resizeZero. destruct (_ <? _); auto.
    - repeat (split; auto). }
  destruct F as (F1 & F2 & F3 & F4 & F5 & F6). assert (C2 : chosen d2 = w) by (unfold chosen; rewrite F2; destruct w; [contradiction|reflexivity]).
  change d' with (createKahanBuffer esz d2) in *. clearbody d2. unfold createKahanBuffer in *. rewrite C2, F1, F3, F4 in *.
  split; [|cbn [dSizes dWith dData dLen]; auto].
  split; [exact I'|]. cbn [dSizes dWith dPtr dLen dData dKahan dKLen dKPtr]. split; [split; reflexivity|]. split; [split; reflexivity|]. split; [exact A|].
  intros k Hk. cbn [dKahan]. destruct (_ <=? _); auto. unfold resizeZero. destruct (_ <? _); auto.
Qed.

Definition goodChunk (g : Group) (ch : list Z) : Prop := goodSet n ch /\ ch <> [] /\ sizeSum (dataSize (gDsg g)) ch < 2 ^ 31.

Lemma chunk_local : forall esz ch g, chunkGroupOk g -> goodChunk g ch ->
  exists d, addAll false levels (gTasks g) (gDsg (allocateChunk esz ch g)) = Some d /\
    ready levels d /\ dSizes d = dSizes (gDsg g) /\ dWith d = ch /\ dLen d < 2 ^ 31 /\
    forall i j, In i ch -> 0 <= j < dataSize d i -> dData d (off d i + j) = weightedSum (gTasks g) (lvl i) j.
Proof.
  intros esz ch g (T & I & K & S & B) (G & N & A).
  assert (AE : accumulatedSize (dSizes (gDsg g)) ch = sizeSum (dataSize (gDsg g)) ch) by apply accumulated_zsum.
  destruct (allocate_ready esz ch (gDsg g) I K G N ltac:(lia)) as (R & ES & EW & ED & EL). cbn [allocateChunk gDsg].
  destruct (addAll_local false (gTasks g) _ R ED T) as (d' & E & Sh & K' & V).
  - now apply (sizesOk_sizes _ (gDsg g)).
  - discriminate.
  - exists d'. split; auto. pose proof Sh as (S1 & S2 & _ & S4 & _). split; [now apply (ready_same levels _ d' R)|]. split; [congruence|]. split; [congruence|].
    split; [rewrite S4, EL; lia|]. intros i j Hi Hj. unfold off, dataSize in *. rewrite S1, S2 in *. apply V; auto; [now apply G|]. now rewrite EW.
Qed.

(** the sparse grid of a group holds the chunk [ch] with the values [W] *)
Definition keptIn (ch : list Z) (W : list Z -> Z -> Qc) (g : Group) : Prop :=
  ready levels (gDsg g) /\ dWith (gDsg g) = ch /\ forall i j, In i ch -> 0 <= j < dataSize (gDsg g) i -> dData (gDsg g) (off (gDsg g) i + j) = W (lvl i) j.

Lemma chunk_distribute : forall d d' g ch W, chunkGroupOk g -> ready levels d -> dSizes d = dSizes (gDsg g) -> dWith d = ch -> goodSet n ch ->
  sameShape d d' -> dKahan d' = dKahan d ->
  (forall i j, In i ch -> 0 <= j < dataSize d i -> dData d' (off d i + j) = W (lvl i) j) ->
  exists g', distribute false levels d' g = Some g' /\ stepped W (fun l => In l levels /\ In (position levels l) ch) g g' /\ chunkGroupOk g' /\ keptIn ch W g'.
Proof.
  intros d d' g ch W (T & I & K & S & B) R ES EW G Sh EK V.
  assert (R' : ready levels d'). { apply (ready_same levels d); auto. intros x Hx. rewrite EK. destruct R as (_ & _ & _ & _ & K'). now apply K'. }
  pose proof Sh as (S1 & S2 & _ & S4 & _).
  destruct (distribute_spec false d' g W R' T) as (ts & E3 & F3).
  - apply (sizesOk_sizes _ (gDsg g)); auto. congruence.
  - discriminate.
  - intros i j c Hi Hw Hj Hc Hl. unfold off, dataSize in *. rewrite S1, S2 in *. apply V; auto. congruence.
  - rewrite S2, EW in F3. exists {| gTasks := ts; gDsg := d'; gComms := gComms g |}. split; auto.
    split; [split; [exact F3|]; cbn [gDsg gComms]; split; [congruence|reflexivity]|].
    split.
    + split; [now apply (tasksOk_updated _ _ _ _ T F3)|]. cbn [gTasks gDsg]. pose proof R' as (I' & _ & _ & _ & K'). split; auto. split; auto. split.
      * apply (sizesOk_updated _ _ _ _ d') with (2 := F3). apply (sizesOk_sizes _ (gDsg g)); auto. congruence.
      * rewrite S1, ES. exact B.
    + unfold keptIn. cbn [gDsg]. split; auto. split; [congruence|]. intros i j Hi Hj. unfold off, dataSize in *. rewrite S1, S2 in *. now apply V.
Qed.

Definition agree (gs : list Group) (is : list Z) : Prop :=
  forall g g' i, In g gs -> In g' gs -> In i is -> dataSize (gDsg g) i = dataSize (gDsg g') i.


Lemma outgroupRound_kept : forall esz mc gs ch, 0 < mc < 2 ^ 31 -> Forall chunkGroupOk gs -> Forall (fun g => goodChunk g ch) gs -> agree gs ch ->
  exists gs', outgroupRound esz mc levels (repeat ch (length gs)) gs = Some gs' /\
    Forall2 (fun g g' => stepped (weightedSum (allTasks gs)) (fun l => In l levels /\ In (position levels l) ch) g g' /\ chunkGroupOk g' /\ keptIn ch (weightedSum (allTasks gs)) g') gs gs'.
Proof.
  intros esz mc gs ch HMC G GC AG. unfold outgroupRound. cbv zeta. rewrite combine_repeat, map_map. cbn [fst snd].
  set (gs1 := map (fun g => allocateChunk esz ch g) gs).
  assert (L1 : length gs1 = length gs) by apply map_length.
  destruct (mapO_spec (fun g d => ready levels d /\ dSizes d = dSizes (gDsg g) /\ dWith d = ch /\ dLen d < 2 ^ 31 /\
    forall i j, In i ch -> 0 <= j < dataSize d i -> dData d (off d i + j) = weightedSum (gTasks g) (lvl i) j)
    (fun g => addAll false levels (gTasks g) (gDsg (allocateChunk esz ch g))) gs) as (ds & E & F).
  { intros g Hg. rewrite Forall_forall in G, GC. apply chunk_local; auto. }
  assert (E' : mapO (fun g => addAll false levels (gTasks g) (gDsg g)) gs1 = Some ds).
  { rewrite <- E. unfold gs1. clear. induction gs as [|g gs IH]; auto. cbn [map mapO]. cbn [allocateChunk gTasks]. now rewrite IH. }
  rewrite E', L1. clear E E'.
  assert (LD : length ds = length gs) by (clear - F; induction F; cbn; auto).
  set (all := seq 0 (length gs)).
  assert (AT : forall r d, nth_error ds r = Some d -> exists g, nth_error gs r = Some g /\ dsgAt ds r = d /\ ready levels d /\ dSizes d = dSizes (gDsg g) /\ dWith d = ch /\ dLen d < 2 ^ 31 /\
    forall i j, In i ch -> 0 <= j < dataSize d i -> dData d (off d i + j) = weightedSum (gTasks g) (lvl i) j).
  { intros r d Ed. destruct (Forall2_nth_error_r _ _ _ _ _ F Ed) as (g & Eg & H). exists g. split; auto. split; [now apply nth_error_nth|exact H]. }
  set (cm := fun r => match nth_error ds r with Some d => [(all, dWith d)] | None => [] end).
  assert (CM : forall r M is, In (M, is) (cm r) <-> M = all /\ is = ch /\ (r < length gs)%nat).
  { intros r M is. unfold cm. destruct (nth_error ds r) as [d|] eqn:Ed.
    - destruct (AT r d Ed) as (g & Eg & _ & _ & _ & W & _). rewrite W. assert (r < length gs)%nat by (apply nth_error_Some; congruence). cbn [In].
      split; [intros [X|[]]; injection X as <- <-; auto|intros (-> & -> & _); now left].
    - apply nth_error_None in Ed. cbn [In]. split; [tauto|]. intros (_ & _ & X). lia. }
  assert (NE : forall r, (r < length gs)%nat -> exists d, nth_error ds r = Some d) by (intros r Hr; apply nth_error_lt; lia).
  destruct (subspaceReduce_spec levels mc cm (dsgAt ds) HMC) with (order := [all]) as (ds' & E & A & V & _).
  - intros r M is H. apply CM in H. destruct H as (_ & _ & Hr). destruct (NE r Hr) as (d & Ed). destruct (AT r d Ed) as (g & _ & -> & R & _ & _ & L & _). auto.
  - intros r M is H. apply CM in H. destruct H as (_ & -> & Hr). destruct (NE r Hr) as (d & Ed). destruct (AT r d Ed) as (g & Eg & -> & _ & _ & -> & _).
    rewrite Forall_forall in GC. destruct (GC g (nth_error_In _ _ Eg)) as ([S X] & _). split; auto.
  - intros r. unfold cm. destruct (nth_error ds r); cbn [map fst]; repeat constructor; intros [].
  - intros r M is M' is' i H H' _ _. apply CM in H, H'. destruct H as (-> & _), H' as (-> & _). reflexivity.
  - intros r M is H. apply CM in H. destruct H as (-> & -> & Hr). split; [unfold all; apply in_seq; lia|]. intros r' Hr'. apply in_seq in Hr'.
    split; [apply CM; repeat split; lia|]. intros i Hi. destruct (NE r Hr) as (d & Ed). destruct (NE r' ltac:(lia)) as (d' & Ed').
    destruct (AT r d Ed) as (g & Eg & -> & _ & ES & _). destruct (AT r' d' Ed') as (g' & Eg' & -> & _ & ES' & _). unfold dataSize. rewrite ES, ES'.
    apply (AG g' g i); auto; eapply nth_error_In; eauto.
  - constructor; [intros []|constructor].
  - intros r M is H. apply CM in H. destruct H as (-> & _). now left.
  - change (fun r => match nth_error ds r with Some d => [(all, dWith d)] | None => [] end) with cm. rewrite E. unfold distributeAll. rewrite L1.
    destruct (mapO_spec (fun rg g' => stepped (weightedSum (allTasks gs)) (fun l => In l levels /\ In (position levels l) ch) (snd rg) g' /\ chunkGroupOk g' /\ keptIn ch (weightedSum (allTasks gs)) g')
      (fun rg : nat * Group => distribute false levels (ds' (fst rg)) (snd rg)) (combine (seq 0 (length gs)) gs)) as (gs' & E2 & F2).
    { intros [r g] H. apply combine_seq_In in H. destruct H as (k & -> & Eg). cbn [Nat.add fst snd].
      assert (Hk : (k < length gs)%nat) by (apply nth_error_Some; congruence). destruct (NE k Hk) as (d & Ed).
      destruct (AT k d Ed) as (g0 & Eg0 & Dk & R & ES & EW & L & LV). assert (g0 = g) by congruence. subst g0. clear Eg0. destruct (A k) as [Sh EK]. rewrite Dk in *.
      rewrite Forall_forall in G, GC. destruct (GC g (nth_error_In _ _ Eg)) as (GS & _ & _).
      apply (chunk_distribute d (ds' k) g ch); auto; [apply G; eapply nth_error_In; eauto|].
      intros i j Hi Hj. specialize (V k all ch i j). rewrite Dk in V. rewrite V; [|apply CM; auto|exact Hi|exact Hj].
      unfold weightedSum. rewrite <- sum_groups. apply qsum_ext. intros r' Hr'. unfold all in Hr'. apply in_seq in Hr'.
      destruct (NE r' ltac:(lia)) as (d' & Ed'). destruct (AT r' d' Ed') as (g' & Eg' & -> & _ & ES' & _ & _ & LV'). rewrite LV'; auto.
      - unfold tasksAt. now rewrite Eg'.
      - pose proof (AG g g' i (nth_error_In _ _ Eg) (nth_error_In _ _ Eg') Hi) as X. unfold dataSize in *. rewrite ES', <- X, <- ES. exact Hj. }
    assert (E3 : mapO (fun rg => distribute false levels (ds' (fst rg)) (snd rg)) (combine (seq 0 (length gs)) gs1) = Some gs').
    { rewrite <- E2. unfold gs1. clear. generalize O. induction gs as [|g gs IH]; intros a; auto. cbn [length seq map combine mapO fst snd]. rewrite IH. reflexivity. }
    rewrite E3. exists gs'. split; auto. apply (Forall2_combine_seq _ _ _ _ _ F2). intros r g b H. exact H.
Qed.

Lemma outgroupRound_spec : forall esz mc gs ch, 0 < mc < 2 ^ 31 -> Forall chunkGroupOk gs -> Forall (fun g => goodChunk g ch) gs -> agree gs ch ->
  exists gs', outgroupRound esz mc levels (repeat ch (length gs)) gs = Some gs' /\
    Forall2 (fun g g' => stepped (weightedSum (allTasks gs)) (fun l => In l levels /\ In (position levels l) ch) g g' /\ chunkGroupOk g') gs gs'.
Proof.
  intros esz mc gs ch HMC G GC AG. destruct (outgroupRound_kept esz mc gs ch HMC G GC AG) as (gs' & E & F). exists gs'. split; auto.
  clear - F. revert F. generalize (weightedSum (allTasks gs)). intros W F. induction F as [|g g' gs gs' (A & B & _) F IH]; constructor; auto.
Qed.

Lemma weightedSum_updated : forall W P cs cs' i j, Forall2 (updated W P) cs cs' -> tasksOk cs -> 0 <= i < n -> ~ P (lvl i) -> 0 <= j < cnt (lvl i) ->
  weightedSum cs' (lvl i) j = weightedSum cs (lvl i) j.
Proof.
  intros W P cs cs' i j F T Hi NP Hj. unfold weightedSum. f_equal. induction F as [|c c' cs cs' U F IH]; auto. destruct T as [G C]. cbn [map]. f_equal.
  - pose proof (Forall_inv G) as Gc. destruct (vleb (lvl i) (gLevel (cGrid c))) eqn:E.
    + apply (contribution_updated W P); auto; [now apply (lvl_contains dim rest HL HP c i)|]. rewrite (C c (lvl i)); auto; [now left|].
      now apply (lvl_contains dim rest HL HP c i).
    + destruct (updated_shape _ _ _ _ U) as (EG & _). unfold contribution. rewrite EG, E. reflexivity.
  - apply IH. split; [apply (Forall_inv_tail G)|]. intros x l Hx. apply C. now right.
Qed.

Lemma allTasks_stepped : forall W P (Q : Group -> Prop) gs gs', Forall2 (fun g g' => stepped W P g g' /\ Q g') gs gs' -> Forall2 (updated W P) (allTasks gs) (allTasks gs').
Proof. intros W P Q gs gs' F. induction F as [|g g' gs gs' [(U & _) _] F IH]; [constructor|]. unfold allTasks. cbn [flat_map]. apply Forall2_app; auto. Qed.

Lemma tasksOk_flat : forall gs, (forall g, In g gs -> tasksOk (gTasks g)) -> tasksOk (allTasks gs).
Proof.
  intros gs H. unfold allTasks. split.
  - apply Forall_forall. intros c Hc. apply in_flat_map in Hc. destruct Hc as (g & Hg & Hc). destruct (H g Hg) as [G _]. rewrite Forall_forall in G. auto.
  - intros c l Hc Hl. apply in_flat_map in Hc. destruct Hc as (g & Hg & Hc). destruct (H g Hg) as [_ C]. auto.
Qed.


Lemma stepped_trans : forall W P Q g g' g'', (forall l, Q l \/ ~ Q l) -> stepped W P g g' -> stepped W Q g' g'' -> stepped W (fun l => P l \/ Q l) g g''.
Proof.
  intros W P Q g g' g'' D (U1 & S1 & C1) (U2 & S2 & C2). split; [|split; congruence]. revert U2. generalize (gTasks g''). clear S1 C1 S2 C2.
  induction U1 as [|c c' cs cs' H1 U1 IH]; intros cs'' U2; inversion U2; subst; constructor; auto. now apply (updated_trans W P Q c c').
Qed.
Lemma stepped_ext : forall W P Q g g', (forall c l, In c (gTasks g) -> containsL c l -> (0 < length (pointsOf c l))%nat -> (P l <-> Q l)) -> stepped W P g g' -> stepped W Q g g'.
Proof.
  intros W P Q g g' H (U & X). split; auto. clear X. induction U as [|c c' cs cs' H1 U IH]; constructor.
  - apply (updated_ext W P Q) with (2 := H1). intros l. apply H. now left.
  - apply IH. intros x l Hx. apply H. now right.
Qed.
Lemma stepped_extW : forall W W' (P : list Z -> Prop) g g', (forall c l j, In c (gTasks g) -> P l -> containsL c l -> (j < length (pointsOf c l))%nat -> W l (Z.of_nat j) = W' l (Z.of_nat j)) ->
  stepped W P g g' -> stepped W' P g g'.
Proof.
  intros W W' P g g' H (U & X). split; auto. clear X. induction U as [|c c' cs cs' H1 U IH]; constructor.
  - apply (updated_extW W W' P) with (2 := H1). intros l j. apply H. now left.
  - apply IH. intros x l j Hx. apply H. now right.
Qed.

Lemma inChunk_dec : forall ch l, (In l levels /\ In (position levels l) ch) \/ ~ (In l levels /\ In (position levels l) ch).
Proof.
  intros ch l. destruct (in_dec (list_eq_dec Z.eq_dec) l levels), (in_dec Z.eq_dec (position levels l) ch); tauto.
Qed.

Lemma posLvl : forall i, 0 <= i < n -> position levels (lvl i) = i.
Proof. intros i Hi. apply (position_lvl dim levels HL i Hi). Qed.

Definition inChunk (ch : list Z) (l : list Z) : Prop := In l levels /\ In (position levels l) ch.

Lemma goodChunk_sizes : forall g g' ch, dSizes (gDsg g') = dSizes (gDsg g) -> goodChunk g ch -> goodChunk g' ch.
Proof. intros g g' ch E (A & B & C). split; auto. split; auto. unfold dataSize in *. now rewrite E. Qed.

Lemma outgroupRounds_spec : forall esz mc W chs gs, 0 < mc < 2 ^ 31 -> Forall chunkGroupOk gs -> (forall g ch, In g gs -> In ch chs -> goodChunk g ch) -> agree gs (concat chs) ->
  NoDup (concat chs) -> (forall i j, In i (concat chs) -> 0 <= j < cnt (lvl i) -> weightedSum (allTasks gs) (lvl i) j = W (lvl i) j) ->
  exists gs', outgroupRounds esz mc levels (map (fun ch => repeat ch (length gs)) chs) gs = Some gs' /\
    Forall2 (fun g g' => stepped W (inChunk (concat chs)) g g' /\ chunkGroupOk g') gs gs'.
Proof.
  intros esz mc W. induction chs as [|ch chs IH]; intros gs HMC G GC AG ND HW.
  - exists gs. split; [reflexivity|]. clear - G. induction gs as [|g gs IHg]; constructor.
    + split; [|now apply Forall_inv in G]. apply (stepped_ext W (fun _ => False)); [intros c l _ _ _; unfold inChunk; cbn [concat In]; tauto|].
      split; auto. clear. induction (gTasks g); constructor; auto. apply updated_refl.
    + apply IHg. now apply Forall_inv_tail in G.
  - cbn [concat] in *. destruct (NoDup_app_elim _ _ ND) as (ND1 & ND2 & DJ).
    destruct (outgroupRound_spec esz mc gs ch HMC G) as (gs1 & E1 & F1).
    { apply Forall_forall. intros g Hg. apply GC; auto. now left. }
    { intros g g' i Hg Hg' Hi. apply AG; auto. apply in_or_app. now left. }
    assert (L1 : length gs1 = length gs) by (clear - F1; induction F1; cbn; auto).
    assert (CG : forall i, In i (concat (ch :: chs)) -> gs <> [] -> 0 <= i < n).
    { intros i Hi N. destruct gs as [|g gs0]; [contradiction|]. apply in_concat in Hi. destruct Hi as (c & Hc & Hi). destruct (GC g c (or_introl eq_refl) Hc) as ((_ & X) & _). auto. }
    destruct (IH gs1 HMC) as (gs2 & E2 & F2).
    { apply Forall_forall. intros g' Hg'. destruct (Forall2_In_r _ _ _ _ F1 Hg') as (g & _ & _ & H). exact H. }
    { intros g' c Hg' Hc. destruct (Forall2_In_r _ _ _ _ F1 Hg') as (g & Hg & (_ & S & _) & _). apply (goodChunk_sizes g); auto. apply GC; auto. now right. }
    { intros g g' i Hg Hg' Hi. destruct (Forall2_In_r _ _ _ _ F1 Hg) as (g0 & Hg0 & (_ & S & _) & _). destruct (Forall2_In_r _ _ _ _ F1 Hg') as (g0' & Hg0' & (_ & S' & _) & _).
      unfold dataSize. rewrite S, S'. apply AG; auto. apply in_or_app. now right. }
    { exact ND2. }
    { intros i j Hi Hj. destruct gs as [|g0 gs0] eqn:EG; [inversion F1; subst; apply (HW i j); auto; apply in_or_app; now right|]. rewrite <- EG in *.
      assert (NN : 0 <= i < n) by (apply CG; [cbn [concat]; apply in_or_app; now right|congruence]).
      rewrite <- (HW i j) by (auto; apply in_or_app; now right). pose proof (allTasks_stepped _ _ _ _ _ F1) as U.
      apply (weightedSum_updated _ _ _ _ _ _ U); auto.
      - apply tasksOk_flat. intros g Hg. rewrite Forall_forall in G. apply (G g Hg).
      - intros [_ X]. rewrite posLvl in X by auto. apply (DJ i); auto. }
    exists gs2. split.
    + cbn [map outgroupRounds]. rewrite E1. rewrite L1 in E2. exact E2.
    + clear E1 E2. assert (HWc : forall g c l j, In g gs -> In c (gTasks g) -> inChunk ch l -> containsL c l -> (j < length (pointsOf c l))%nat -> weightedSum (allTasks gs) l (Z.of_nat j) = W l (Z.of_nat j)).
      { intros g c l j Hg Hc [Hl Hp] Hcl Hj. destruct (position_In levels l Hl) as [P1 P2]. change (lvl (position levels l) = l) in P2. rewrite <- P2 at 1 2.
        apply HW; [apply in_or_app; now left|]. rewrite P2. rewrite Forall_forall in G. destruct (G g Hg) as ((_ & C) & _). rewrite <- (C c l); auto. lia. }
      clear HW AG GC G CG. revert gs2 F2. generalize (weightedSum (allTasks gs)) HWc F1. clear. intros W1 HWc F1. induction F1 as [|g g1 gs gs1 [S1 O1] F1 IH]; intros gs2 F2; inversion F2 as [|? g2 ? gs2' [S2 O2] F2']; subst; constructor.
      * split; auto. apply (stepped_ext W (fun l => inChunk ch l \/ inChunk (concat chs) l)).
        -- intros c l _ _ _. unfold inChunk. rewrite in_app_iff. tauto.
        -- apply (stepped_trans W _ _ g g1 g2); auto; [apply inChunk_dec|]. apply (stepped_extW W1) with (2 := S1). intros c l j. apply HWc. now left.
      * apply IH; auto. intros g0 c l j Hg0. apply (HWc g0). now right.
Qed.

Lemma ingroupRounds_spec : forall esz W chs g, chunkGroupOk g -> (forall ch, In ch chs -> goodChunk g ch) ->
  NoDup (concat chs) -> (forall i j c, In i (concat chs) -> In c (gTasks g) -> containsL c (lvl i) -> 0 <= j < cnt (lvl i) -> weightedSum (gTasks g) (lvl i) j = W (lvl i) j) ->
  exists g', ingroupRounds esz levels chs g = Some g' /\ stepped W (inChunk (concat chs)) g g' /\ chunkGroupOk g'.
Proof.
  intros esz W. induction chs as [|ch chs IH]; intros g G GC ND HW.
  - exists g. split; [reflexivity|]. split; auto. apply (stepped_ext W (fun _ => False)); [intros c l _ _ _; unfold inChunk; cbn [concat In]; tauto|].
    split; auto. clear. induction (gTasks g); constructor; auto. apply updated_refl.
  - cbn [concat] in *. destruct (NoDup_app_elim _ _ ND) as (ND1 & ND2 & DJ). cbn [ingroupRounds].
    pose proof (GC ch (or_introl eq_refl)) as Gch.
    destruct (chunk_local esz ch g G Gch) as (d & E & R & ES & EW & L & V).
    destruct (chunk_distribute d d g ch (weightedSum (gTasks g)) G R ES EW) as (g1 & E1 & S1 & O1 & _); auto; [apply Gch|apply sameShape_refl|].
    replace (gTasks (allocateChunk esz ch g)) with (gTasks g) by reflexivity. rewrite E.
    replace (distribute false levels d (allocateChunk esz ch g)) with (distribute false levels d g) by reflexivity. rewrite E1.
    assert (RG : forall i, In i (concat (ch :: chs)) -> 0 <= i < n). { intros i Hi. apply in_concat in Hi. destruct Hi as (c & Hc & Hi). destruct (GC c Hc) as ((_ & X) & _). auto. }
    pose proof S1 as (U1 & SZ1 & C1).
    destruct (IH g1 O1) as (g2 & E2 & S2 & O2).
    { intros c Hc. apply (goodChunk_sizes g); auto. apply GC. now right. }
    { exact ND2. }
    { intros i j c' Hi Hc' Hl Hj. destruct (Forall2_In_r _ _ _ _ U1 Hc') as (c & Hc & U). destruct (updated_shape _ _ _ _ U) as (EG & _).
      assert (Hl' : containsL c (lvl i)) by (unfold containsL in *; now rewrite EG in Hl).
      rewrite <- (HW i j c) by (auto; apply in_or_app; now right).
      assert (NN : 0 <= i < n) by (apply RG; cbn [concat]; apply in_or_app; now right).
      apply (weightedSum_updated _ _ _ _ _ _ U1); auto; [apply G|].
      intros [_ X]. rewrite posLvl in X by auto. apply (DJ i); auto. }
    exists g2. split; auto. split; auto.
    apply (stepped_ext W (fun l => inChunk ch l \/ inChunk (concat chs) l)).
    + intros c l _ _ _. unfold inChunk. rewrite in_app_iff. tauto.
    + apply (stepped_trans W _ _ g g1 g2); auto; [apply inChunk_dec|]. apply (stepped_extW (weightedSum (gTasks g))) with (2 := S1).
      intros c l j Hc [Hl Hp] Hcl Hj. destruct (position_In levels l Hl) as [P1 P2]. change (lvl (position levels l) = l) in P2. rewrite <- P2 at 1 2.
      apply (HW _ _ c); auto; [apply in_or_app; now left|now rewrite P2|]. rewrite P2. destruct G as ((_ & C) & _). rewrite <- (C c l); auto. lia.
Qed.


Definition chunkedOk (gs : list Group) (is : list Z) : Prop :=
  goodSet n is /\ (forall g, In g gs -> (gComms g = [] /\ is = []) \/ exists M, gComms g = [(M, is)]) /\ agree gs is /\
  forall r r' c c0 i, 0 <= i < n -> ~ In i is -> r' <> r -> In c0 (tasksAt gs r) -> containsL c0 (lvl i) -> 0 < cnt (lvl i) -> In c (tasksAt gs r') -> ~ containsL c (lvl i).

Lemma chunks_good : forall g mc l, chunkGroupOk g -> 0 < mc < 2 ^ 31 -> goodSet n l ->
  concat (getChunkedSubspaces (dataSize (gDsg g)) mc l) = l /\ forall ch, In ch (getChunkedSubspaces (dataSize (gDsg g)) mc l) -> goodChunk g ch.
Proof.
  intros g mc l (_ & I & _ & _ & B) HMC [S X]. destruct (chunked_spec (dataSize (gDsg g)) mc (length l) l) as [C F]; auto.
  { intros s _. pose proof (dataSize_range _ _ s I). split; [lia|]. unfold dataSize. destruct (nth_in_or_default (Z.to_nat s) (dSizes (gDsg g)) 0) as [Y| ->]; [|lia].
    rewrite Forall_forall in B. now apply B. }
  fold (getChunkedSubspaces (dataSize (gDsg g)) mc l) in C, F. split; auto. intros ch Hch. rewrite Forall_forall in F. destruct (F ch Hch) as [N A].
  assert (SUB : forall i, In i ch -> In i l) by (intros i Hi; rewrite <- C; apply in_concat; eauto).
  split; [|split; auto].
  - split; [|auto]. rewrite <- C in S. now apply (concat_sorted_chunk ch (getChunkedSubspaces (dataSize (gDsg g)) mc l)).
  - destruct A as [A|A]; [lia|]. destruct ch as [|i [|]]; try discriminate A. unfold sizeSum. cbn [map]. change (zsum [?x]) with (x + 0).
    unfold dataSize. destruct (nth_in_or_default (Z.to_nat i) (dSizes (gDsg g)) 0) as [Y|Y]; [|rewrite Y; lia]. rewrite Forall_forall in B. apply B in Y. lia.
Qed.



Lemma ingroup_In : forall g is i, dsgInv (length levels) (gDsg g) -> (gComms g = [] /\ is = []) \/ (exists M, gComms g = [(M, is)]) ->
  (In i (ingroupSubspaces (dSizes (gDsg g)) (gComms g)) <-> 0 <= i < n /\ 0 < dataSize (gDsg g) i /\ ~ In i is).
Proof.
  intros g is i (LS & _) H. unfold ingroupSubspaces. rewrite filter_In, zrange_In, LS. fold n. rewrite andb_true_iff. unfold dataSize.
  assert (Q : match gComms g with [] => true | c :: _ => negb (memZ i (snd c)) end = true <-> ~ In i is).
  { destruct H as [[-> ->]|(M & ->)]; [split; [intros _ []|reflexivity]|]. cbn [snd]. rewrite negb_true_iff. rewrite <- not_true_iff_false, memZ_In. reflexivity. }
  rewrite Q. rewrite Z.gtb_lt. tauto.
Qed.

Lemma collect_spec : forall esz mc gs is, 0 < mc < 2 ^ 31 -> Forall chunkGroupOk gs -> chunkedOk gs is ->
  exists gs', collectReduceDistribute esz mc levels gs = Some gs' /\
    Forall2 (fun g g' => stepped (weightedSum (allTasks gs)) (fun l => In l levels) g g' /\ chunkGroupOk g') gs gs'.
Proof.
  intros esz mc gs is HMC G (GI & CO & AG & AL). unfold collectReduceDistribute. cbv zeta.
  destruct gs as [|g0 gs0] eqn:EG; [exists []; split; [reflexivity|constructor]|]. rewrite <- EG in *.
  set (chs := getChunkedSubspaces (dataSize (gDsg g0)) mc is).
  assert (In0 : In g0 gs) by (rewrite EG; now left). pose proof G as G'. rewrite Forall_forall in G'.
  assert (CE : forall g, In g gs -> outgroupChunks mc g = chs).
  { intros g Hg. unfold outgroupChunks, chs, getChunkedSubspaces. destruct (CO g Hg) as [[-> ->]|(M & ->)]; [reflexivity|]. cbn [snd]. apply chunked_ext. intros s Hs. now apply AG. }
  assert (MC : map (outgroupChunks mc) gs = repeat chs (length gs)).
  { clear - CE. induction gs as [|g gs IH]; auto. cbn [map length repeat]. rewrite CE by now left. f_equal. apply IH. intros x Hx. apply CE. now right. }
  rewrite MC. assert (M0 : match repeat chs (length gs) with [] => O | c :: _ => length c end = length chs) by now rewrite EG.
  rewrite M0. assert (FB : forallb (fun c => Nat.eqb (length c) (length chs)) (repeat chs (length gs)) = true).
  { apply forallb_forall. intros c Hc. apply repeat_spec in Hc. subst. apply Nat.eqb_refl. }
  rewrite FB. assert (RE : map (fun k => map (fun c => nth k c []) (repeat chs (length gs))) (seq 0 (length chs)) = map (fun ch => repeat ch (length gs)) chs).
  { transitivity (map (fun k => repeat (nth k chs []) (length gs)) (seq 0 (length chs))); [|rewrite <- (map_map (fun k => nth k chs []) (fun ch => repeat ch (length gs))), nth_seq_map; reflexivity].
    apply map_ext. intros k. generalize (length gs). intros m. induction m as [|m IH]; auto. cbn [repeat map]. now rewrite IH. }
  rewrite RE. destruct (chunks_good g0 mc is (G' g0 In0) HMC GI) as [CC _]. fold chs in CC.
  destruct (outgroupRounds_spec esz mc (weightedSum (allTasks gs)) chs gs HMC G) as (gs1 & E1 & F1).
  { intros g ch Hg Hch. apply (chunks_good g mc is (G' g Hg) HMC GI).
    assert (X : getChunkedSubspaces (dataSize (gDsg g)) mc is = chs) by (unfold chs, getChunkedSubspaces; apply chunked_ext; intros s Hs; now apply AG). now rewrite X. }
  { rewrite CC. exact AG. }
  { rewrite CC. apply sorted_NoDup. apply GI. }
  { reflexivity. }
  rewrite E1. rewrite CC in F1. clear E1 RE FB M0 MC CE.
  destruct (mapO_spec (fun g g' => stepped (weightedSum (allTasks gs)) (inChunk (ingroupSubspaces (dSizes (gDsg g)) (gComms g))) g g' /\ chunkGroupOk g')
     (ingroupPart esz mc levels) gs1) as (gs2 & E2 & F2).
  { intros g1 Hg1. apply In_nth_error in Hg1. destruct Hg1 as (r & Er). destruct (Forall2_nth_error_r _ _ _ _ _ F1 Er) as (g & Eg & S1 & O1).
    pose proof S1 as (U1 & SZ & CM). unfold ingroupPart. cbv zeta.
    assert (II : forall i, In i (ingroupSubspaces (dSizes (gDsg g1)) (gComms g1)) <-> 0 <= i < n /\ 0 < dataSize (gDsg g1) i /\ ~ In i is).
    { intros i. apply ingroup_In; [apply O1|]. rewrite CM. apply CO. eapply nth_error_In; eauto. }
    set (ing := ingroupSubspaces (dSizes (gDsg g1)) (gComms g1)) in *.
    assert (GI1 : goodSet n ing) by (split; [apply sorted_filter, zrange_sorted|intros i Hi; now apply II in Hi]).
    destruct (chunks_good g1 mc ing O1 HMC GI1) as [C2 GC2].
    destruct (ingroupRounds_spec esz (weightedSum (allTasks gs)) (getChunkedSubspaces (dataSize (gDsg g1)) mc ing) g1 O1 GC2) as (g2 & E2 & S2 & O2).
    - rewrite C2. apply sorted_NoDup. apply GI1.
    - rewrite C2. intros i j c' Hi Hc' Hl Hj. apply II in Hi. destruct Hi as (Hn & _ & NI).
      destruct (Forall2_In_r _ _ _ _ U1 Hc') as (c & Hc & U). destruct (updated_shape _ _ _ _ U) as (EGr & _).
      assert (Hl' : containsL c (lvl i)) by (unfold containsL in *; now rewrite EGr in Hl).
      assert (TG : tasksOk (gTasks g)) by (apply (G' g); eapply nth_error_In; eauto).
      rewrite (weightedSum_updated _ _ _ _ i j U1); auto; [|intros [_ X]; rewrite posLvl in X by auto; contradiction].
      unfold weightedSum. apply (sum_single _ gs r); auto. intros r' c1 Hr' Hc1. unfold contribution.
      destruct (vleb (lvl i) (gLevel (cGrid c1))) eqn:VE; auto. exfalso. apply (AL r r' c1 c i); auto; [unfold tasksAt; now rewrite Eg|lia|].
      apply (lvl_contains dim rest HL HP c1 i); auto. unfold tasksAt in Hc1. destruct (nth_error gs r') as [g'|] eqn:Eg'; [|destruct Hc1].
      destruct (G' g' (nth_error_In _ _ Eg')) as ((GG & _) & _). rewrite Forall_forall in GG. auto.
    - rewrite C2 in S2. rewrite E2. eexists. split; [reflexivity|]. split; [exact S2|]. destruct O2 as (A1 & A2 & A3 & A4 & A5).
      split; auto. cbn [gTasks gDsg]. split; [now apply delete_inv|]. split; [intros k _; reflexivity|]. split; auto. }
  rewrite E2. exists gs2. split; auto. clear E2.
  assert (IG : forall g g1, In g gs -> stepped (weightedSum (allTasks gs)) (inChunk is) g g1 -> chunkGroupOk g1 -> forall c l, In c (gTasks g) -> containsL c l -> (0 < length (pointsOf c l))%nat ->
     (inChunk is l \/ inChunk (ingroupSubspaces (dSizes (gDsg g1)) (gComms g1)) l <-> In l levels)).
  { intros g g1 Hg (_ & SZ & CM) O1 c l Hc Hl Hp. split; [unfold inChunk; tauto|]. intros Hin. destruct (position_In levels l Hin) as [P1 P2]. change (0 <= position levels l < n) in P1.
    change (lvl (position levels l) = l) in P2. destruct (in_dec Z.eq_dec (position levels l) is) as [Y|Y]; [left; now split|]. right. split; auto.
    apply (ingroup_In g1 is); [apply O1|rewrite CM; auto|]. split; auto. split; auto. unfold dataSize. rewrite SZ.
    destruct (G' g Hg) as ((_ & CT) & _ & _ & SO & _). change (0 < dataSize (gDsg g) (position levels l)). rewrite (SO c _ Hc P1) by now rewrite P2. rewrite P2, <- (CT c l); auto. lia. }
  revert gs2 F2 IG. generalize (weightedSum (allTasks gs)) F1. clear. intros W F1. induction F1 as [|g g1 gs gs1 [S1 O1] F1 IH]; intros gs2 F2 IG; inversion F2 as [|? g2 ? gs2' [S2 O2] F2']; subst; constructor.
  - split; auto. apply (stepped_ext W (fun l => inChunk is l \/ inChunk (ingroupSubspaces (dSizes (gDsg g1)) (gComms g1)) l)).
    + apply IG; auto. now left.
    + apply (stepped_trans W _ _ g g1 g2); auto. apply inChunk_dec.
  - apply IH; auto. intros g' g1' Hg'. apply IG. now right.
Qed.
End Step.
