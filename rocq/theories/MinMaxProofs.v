(** Proofs about MinMaxModel: element-wise reductions and the history of a process. *)
From Verif Require Import Base TensorModel TensorProofs SparseGridModel SparseGridProofs SparseGridProps MinMaxModel.
From Coq Require Import QArith Qcanon.
Open Scope Z_scope.
Ltac Zify.zify_post_hook ::= idtac.

(** ** Reductions *)
Lemma zipWithQ_length : forall f a b, length a = length b -> length (zipWithQ f a b) = length a.
Proof. intros f. induction a as [|x a IH]; intros [|y b] H; cbn in *; try discriminate; auto. Qed.
Lemma zipWithQ_nth : forall f a b i, length a = length b -> (i < length a)%nat ->
  nth i (zipWithQ f a b) 0%Qc = f (nth i a 0%Qc) (nth i b 0%Qc).
Proof.
  intros f. induction a as [|x a IH]; intros [|y b] i H Hi; cbn in *; try discriminate; try lia.
  destruct i; auto. apply IH; lia.
Qed.

Lemma isMin_app : forall a b la lb, isMin a la -> isMin b lb -> isMin (qmin a b) (la ++ lb).
Proof.
  intros a b la lb [A1 A2] [B1 B2]. destruct (qmin_spec a b) as (Q1 & Q2 & Q3). split.
  - apply in_or_app. destruct Q1 as [->| ->]; auto.
  - intros x Hx. apply in_app_or in Hx. destruct Hx as [Hx|Hx]; [eapply Qcle_trans; [exact Q2|auto]|eapply Qcle_trans; [exact Q3|auto]].
Qed.
Lemma isMax_app : forall a b la lb, isMax a la -> isMax b lb -> isMax (qmax a b) (la ++ lb).
Proof.
  intros a b la lb [A1 A2] [B1 B2]. destruct (qmax_spec a b) as (Q1 & Q2 & Q3). split.
  - apply in_or_app. destruct Q1 as [->| ->]; auto.
  - intros x Hx. apply in_app_or in Hx. destruct Hx as [Hx|Hx]; [eapply Qcle_trans; [|exact Q2]; auto|eapply Qcle_trans; [|exact Q3]; auto].
Qed.
Lemma isMin_ext : forall a l l', (forall x, In x l <-> In x l') -> isMin a l -> isMin a l'.
Proof. intros a l l' H [A1 A2]. split; [now apply H|]. intros x Hx. apply A2. now apply H. Qed.
Lemma isMax_ext : forall a l l', (forall x, In x l <-> In x l') -> isMax a l -> isMax a l'.
Proof. intros a l l' H [A1 A2]. split; [now apply H|]. intros x Hx. apply A2. now apply H. Qed.

(** The vectors [m] are extreme values of the families [V i], up to the initial values. *)
Definition extremes (n : nat) (m : list Qc * list Qc) (V : nat -> list Qc) : Prop :=
  length (fst m) = n /\ length (snd m) = n /\
  forall i, (i < n)%nat -> isMin (nth i (fst m) 0%Qc) (dblMax :: V i) /\ isMax (nth i (snd m) 0%Qc) (dblMin :: V i).

Lemma extremes_step : forall n m1 m2 V1 V2, extremes n m1 V1 -> extremes n m2 V2 ->
  extremes n (zipWithQ qmin (fst m1) (fst m2), zipWithQ qmax (snd m1) (snd m2)) (fun i => V1 i ++ V2 i).
Proof.
  intros n m1 m2 V1 V2 (A1 & A2 & A3) (B1 & B2 & B3). unfold extremes. cbn [fst snd].
  rewrite !zipWithQ_length by congruence. split; auto. split; auto. intros i Hi.
  rewrite !zipWithQ_nth by (try congruence; lia). destruct (A3 i Hi) as [A4 A5]. destruct (B3 i Hi) as [B4 B5]. split.
  - eapply isMin_ext; [|apply isMin_app; [exact A4|exact B4]]. intros x. cbn [app In]. rewrite !in_app_iff. cbn [In]. tauto.
  - eapply isMax_ext; [|apply isMax_app; [exact A5|exact B5]]. intros x. cbn [app In]. rewrite !in_app_iff. cbn [In]. tauto.
Qed.

Lemma extremes_ext : forall n m V V', (forall i x, (i < n)%nat -> (In x (V i) <-> In x (V' i))) -> extremes n m V -> extremes n m V'.
Proof.
  intros n m V V' H (A1 & A2 & A3). split; auto. split; auto. intros i Hi. destruct (A3 i Hi) as [A4 A5]. split.
  - eapply isMin_ext; [|exact A4]. intros x. cbn [In]. rewrite (H i x Hi). tauto.
  - eapply isMax_ext; [|exact A5]. intros x. cbn [In]. rewrite (H i x Hi). tauto.
Qed.

Lemma reduceBoth_extremes : forall n (ms : list (list Qc * list Qc)) (Vs : list (nat -> list Qc)), ms <> [] ->
  Forall2 (extremes n) ms Vs -> extremes n (reduceBoth ms) (fun i => flat_map (fun V => V i) Vs).
Proof.
  intros n ms Vs NE F. destruct F as [|m V ms Vs H F]; [congruence|]. clear NE. unfold reduceBoth, reduceVectors. cbn [map].
  cbn [flat_map]. revert m V H. induction F as [|m2 V2 ms Vs H2 F IH]; intros m V H; cbn [map fold_left flat_map].
  - eapply extremes_ext; [|destruct m; exact H]. intros i x _. rewrite app_nil_r. tauto.
  - specialize (IH (zipWithQ qmin (fst m) (fst m2), zipWithQ qmax (snd m) (snd m2)) (fun i => V i ++ V2 i)).
    cbn [fst snd] in IH. eapply extremes_ext; [|apply IH, extremes_step; auto]. intros i x _. rewrite !in_app_iff. tauto.
Qed.

Lemma allSome_map : forall {A B} (f : A -> option B) (l : list A) ys, allSome (map f l) = Some ys -> Forall2 (fun x y => f x = Some y) l ys.
Proof.
  intros A B f. induction l as [|x l IH]; intros ys H; cbn [map allSome] in H.
  - inv H. constructor.
  - destruct (f x) eqn:E; [|discriminate]. destruct (allSome (map f l)) eqn:E2; [|discriminate]. inv H. constructor; auto.
Qed.
Lemma allSome_defined : forall {A B} (f : A -> option B) (l : list A), (exists ys, allSome (map f l) = Some ys) <-> forall x, In x l -> f x <> None.
Proof.
  intros A B f. induction l as [|x l IH]; cbn [map allSome].
  - split; [intros _ x []|eauto].
  - destruct (f x) eqn:E.
    + split.
      * intros [ys H]. destruct (allSome (map f l)) eqn:E2; [|discriminate]. intros y [<-|Hy]; [congruence|]. apply IH; eauto.
      * intros H. destruct (proj2 IH) as [ys Hys]; [intros y Hy; apply H; now right|]. rewrite Hys. eauto.
    + split; [intros [ys H]; discriminate|]. intros H. exfalso. apply (H x); [now left|auto].
Qed.

(** ** The history of a process *)

(** A write called by [c] is entered by group [g] of [nG]. *)
Definition enters (nG : nat) (c : MCaller) (g : nat) : bool :=
  match c with ByWorkers => Nat.ltb g nG | ByManager => Nat.eqb (S g) nG end.

(** The states of the sparse grid of process [(g, p)] whose coefficients were collected since its last report. *)
Fixpoint collectedSince (nG : nat) (ops : list MOp) (g p : nat) (acc : list DSG) : list DSG :=
  match ops with
  | [] => acc
  | MStore _ _ _ :: r => collectedSince nG r g p acc
  | MCollect g' p' d :: r => collectedSince nG r g p (if (Nat.eqb g g' && Nat.eqb p p')%bool then acc ++ [d] else acc)
  | MWrite c :: r => collectedSince nG r g p (if enters nG c g then [] else acc)
  end.

(** The sparse grid process [(g, p)] holds at last. *)
Fixpoint heldLast (ops : list MOp) (g p : nat) (d0 : DSG) : DSG :=
  match ops with
  | [] => d0
  | MStore g' p' d :: r => heldLast r g p (if (Nat.eqb g g' && Nat.eqb p p')%bool then d else d0)
  | MCollect g' p' d :: r => heldLast r g p (if (Nat.eqb g g' && Nat.eqb p p')%bool then d else d0)
  | MWrite _ :: r => heldLast r g p d0
  end.

Definition fits (n : nat) (d : DSG) : Prop := length (dSizes d) = n /\ goodSet (Z.of_nat n) (dWith d).
Definition opFits (n : nat) (o : MOp) : Prop := match o with MStore _ _ d | MCollect _ _ d => fits n d | MWrite _ => True end.

Lemma history_snoc : forall ds st d, minMaxHistory st (ds ++ [d]) = Some (accumulateMinMax d (minMaxHistory st ds)).
Proof. induction ds as [|x ds IH]; intros st d; cbn [app minMaxHistory]; auto. Qed.
Lemma history_Some_stays : forall ds m, exists m', minMaxHistory (Some m) ds = Some m'.
Proof. induction ds as [|d ds IH]; intros m; cbn [minMaxHistory]; eauto. Qed.
Lemma history_nonempty : forall ds, ds <> [] -> exists m, minMaxHistory None ds = Some m.
Proof. intros [|d ds] H; [congruence|]. cbn [minMaxHistory]. apply history_Some_stays. Qed.

(** The accumulators and the sparse grid of every process are those of its history. *)
Definition historyInv (nP : nat) (coll : nat -> nat -> list DSG) (held : nat -> nat -> DSG) (s : MSys) : Prop :=
  forall g p, (p < nP)%nat -> mAcc (s g p) = minMaxHistory None (coll g p) /\ mDsg (s g p) = held g p.

Lemma callingGroups_In : forall c nG g, In g (callingGroups c nG) <-> enters nG c g = true.
Proof.
  intros [|] nG g; unfold callingGroups, enters.
  - rewrite in_seq, Nat.ltb_lt. lia.
  - rewrite Nat.eqb_eq. destruct nG; cbn; lia.
Qed.
Lemma callingGroups_exists : forall c nG g, existsb (Nat.eqb g) (callingGroups c nG) = enters nG c g.
Proof.
  intros c nG g. apply Bool.eq_true_iff_eq. rewrite <- callingGroups_In, existsb_exists. split.
  - intros (x & Hx & E). apply Nat.eqb_eq in E. now subst.
  - intros H. exists g. split; auto. apply Nat.eqb_refl.
Qed.

Lemma step_history : forall levels nG nP o s s' f coll held, historyInv nP coll held s ->
  stepMinMax levels nG nP o s = Some (s', f) ->
  historyInv nP (fun g p => collectedSince nG [o] g p (coll g p)) (fun g p => heldLast [o] g p (held g p)) s'.
Proof.
  intros levels nG nP o s s' f coll held H E g p Hp. destruct (H g p Hp) as [H1 H2].
  destruct o as [g' p' d|g' p' d|c]; cbn [stepMinMax collectedSince heldLast] in *.
  - injection E as <- _. unfold setMProc. destruct (Nat.eqb_spec g g') as [->|]; cbn [andb]; auto. destruct (Nat.eqb_spec p p') as [->|]; auto.
  - unfold accumulateProc in E. cbn [mDsg mAcc] in E. destruct (readsNull d); [discriminate|]. injection E as <- _. unfold setMProc.
    destruct (Nat.eqb_spec g g') as [->|]; cbn [andb]; auto. destruct (Nat.eqb_spec p p') as [->|]; auto. cbn [mAcc mDsg].
    rewrite history_snoc, <- H1. auto.
  - unfold writeMinMax in E. destruct (allSome _) as [mss|]; [|discriminate]. injection E as <- _.
    rewrite callingGroups_exists. destruct (enters nG c g); cbn [andb]; auto.
    apply Nat.ltb_lt in Hp. rewrite Hp. cbn [mAcc mDsg]. auto.
Qed.

Lemma collectedSince_cons : forall nG o r g p acc, collectedSince nG (o :: r) g p acc = collectedSince nG r g p (collectedSince nG [o] g p acc).
Proof. intros nG o r g p acc. destruct o; reflexivity. Qed.
Lemma heldLast_cons : forall o r g p d, heldLast (o :: r) g p d = heldLast r g p (heldLast [o] g p d).
Proof. intros o r g p d. destruct o; reflexivity. Qed.

Lemma run_history : forall levels nG nP ops s s' fs coll held, historyInv nP coll held s ->
  runMinMax levels nG nP ops s = Some (s', fs) ->
  historyInv nP (fun g p => collectedSince nG ops g p (coll g p)) (fun g p => heldLast ops g p (held g p)) s'.
Proof.
  intros levels nG nP. induction ops as [|o r IH]; intros s s' fs coll held H E; cbn [runMinMax] in E.
  - injection E as <- _. exact H.
  - destruct (stepMinMax levels nG nP o s) as [[s1 f1]|] eqn:E1; [|discriminate].
    destruct (runMinMax levels nG nP r s1) as [[s2 f2]|] eqn:E2; [|discriminate]. injection E as <- _.
    pose proof (IH _ _ _ _ _ (step_history _ _ _ _ _ _ _ _ _ H E1) E2) as X.
    intros g p Hp. rewrite collectedSince_cons, heldLast_cons. exact (X g p Hp).
Qed.

Lemma run_app : forall levels nG nP a b s, runMinMax levels nG nP (a ++ b) s =
  match runMinMax levels nG nP a s with
  | Some (s1, f1) => match runMinMax levels nG nP b s1 with Some (s2, f2) => Some (s2, f1 ++ f2) | None => None end
  | None => None
  end.
Proof.
  intros levels nG nP. induction a as [|o a IH]; intros b s; cbn [app runMinMax].
  - destruct (runMinMax levels nG nP b s) as [[s2 f2]|]; auto.
  - destruct (stepMinMax levels nG nP o s) as [[s1 f1]|]; auto. rewrite IH.
    destruct (runMinMax levels nG nP a s1) as [[s2 f2]|]; auto. destruct (runMinMax levels nG nP b s2) as [[s3 f3]|]; auto.
    now rewrite app_assoc.
Qed.

Lemma collected_fits : forall n nG ops g p acc, Forall (opFits n) ops -> Forall (fits n) acc -> Forall (fits n) (collectedSince nG ops g p acc).
Proof.
  intros n nG. induction ops as [|o r IH]; intros g p acc HO HA; cbn [collectedSince]; auto. inv HO.
  destruct o as [g' p' d|g' p' d|c]; apply IH; auto.
  - destruct (_ && _)%bool; auto. apply Forall_app. split; auto.
  - destruct (enters nG c g); auto.
Qed.
Lemma held_fits : forall n ops g p d, Forall (opFits n) ops -> fits n d -> fits n (heldLast ops g p d).
Proof.
  intros n. induction ops as [|o r IH]; intros g p d HO HD; cbn [heldLast]; auto. inv HO.
  destruct o as [g' p' d'|g' p' d'|c]; apply IH; auto; destruct (_ && _)%bool; auto.
Qed.
Lemma init_fits : forall n, fits n (initDSG n).
Proof. intros n. split; [apply repeat_length|]. split; [constructor|intros i []]. Qed.

(** What the report of a process covers. *)
Definition covered (nG : nat) (ops : list MOp) (n g p : nat) : list DSG :=
  match collectedSince nG ops g p [] with [] => [heldLast ops g p (initDSG n)] | l => l end.

Lemma covered_fits : forall n nG ops g p, Forall (opFits n) ops -> Forall (fits n) (covered nG ops n g p).
Proof.
  intros n nG ops g p H. unfold covered. pose proof (collected_fits n nG ops g p [] H (Forall_nil _)) as X.
  destruct (collectedSince nG ops g p []) eqn:E; auto. constructor; auto. apply held_fits; auto. apply init_fits.
Qed.

Lemma history_extremes : forall n ds m, Forall (fits n) ds -> minMaxHistory None ds = Some m -> length (fst m) = n /\ length (snd m) = n ->
  extremes n m (fun i => flat_map (valuesOf (Z.of_nat i)) ds).
Proof.
  intros n ds m HF E [L1 L2]. split; auto. split; auto. intros i Hi.
  pose proof (minMax_spec n ds None HF I (Z.of_nat i) ltac:(lia)) as X. cbv zeta in X. rewrite E, Nat2Z.id in X. cbn [fst snd] in X.
  rewrite (nth_indep (repeat dblMax n) 0%Qc dblMax), (nth_indep (repeat dblMin n) 0%Qc dblMin), !nth_repeat in X by (rewrite repeat_length; lia).
  exact X.
Qed.
Lemma history_lengths : forall n ds st m, Forall (fits n) ds -> (match st with Some m => length (fst m) = n /\ length (snd m) = n | None => True end) ->
  minMaxHistory st ds = Some m -> length (fst m) = n /\ length (snd m) = n.
Proof.
  intros n. induction ds as [|d ds IH]; intros st m HF HS E; cbn [minMaxHistory] in E; [subst; auto|]. inv HF.
  eapply IH; [auto| |exact E]. destruct H1 as [H3 H4]. destruct (accumulate_spec d st n H3 H4 HS) as (A & B & _). auto.
Qed.

Lemma ensureCollected_extremes : forall n nG ops g p x m, Forall (opFits n) ops ->
  mAcc x = minMaxHistory None (collectedSince nG ops g p []) -> mDsg x = heldLast ops g p (initDSG n) ->
  ensureCollected x = Some m ->
  extremes n m (fun i => flat_map (valuesOf (Z.of_nat i)) (covered nG ops n g p)).
Proof.
  intros n nG ops g p x m HO H1 H2 E. pose proof (covered_fits n nG ops g p HO) as HC.
  assert (X : minMaxHistory None (covered nG ops n g p) = Some m).
  { unfold ensureCollected in E. unfold covered. destruct (collectedSince nG ops g p []) as [|d l] eqn:C.
    - cbn [minMaxHistory] in H1. rewrite H1 in E. unfold accumulateProc in E. destruct (readsNull (mDsg x)); [discriminate|].
      cbn [mAcc] in E. rewrite H1, H2 in E. exact E.
    - destruct (history_nonempty (d :: l)) as [m' Hm']; [discriminate|]. rewrite Hm' in *. rewrite H1 in E. exact E. }
  apply history_extremes; auto. eapply (history_lengths n (covered nG ops n g p) None); eauto.
Qed.

Lemma Forall2_map_both : forall {A B C D} (R : C -> D -> Prop) (f : B -> C) (h : A -> D) (xs : list A) (ys : list B) (Q : A -> B -> Prop),
  Forall2 Q xs ys -> (forall x y, In x xs -> Q x y -> R (f y) (h x)) -> Forall2 R (map f ys) (map h xs).
Proof.
  intros A B C D R f h xs ys Q F. induction F as [|x y xs ys H F IH]; intros K; cbn [map]; constructor.
  - apply K; [now left|auto].
  - apply IH. intros a b Ha. apply K. now right.
Qed.

Lemma flat_map_map : forall {A B C} (f : A -> B) (g : B -> list C) l, flat_map g (map f l) = flat_map (fun x => g (f x)) l.
Proof. intros A B C f g. induction l as [|x l IH]; cbn; auto. now rewrite IH. Qed.

(** All values of subspace [i] the report covers, on all processes. *)
Definition reportedValues (nG nP n : nat) (ops : list MOp) (i : nat) : list Qc :=
  flat_map (fun g => flat_map (fun p => flat_map (valuesOf (Z.of_nat i)) (covered nG ops n g p)) (seq 0 nP)) (seq 0 nG).

Lemma write_extremes : forall levels nG nP ops s s' f n, (0 < nG)%nat -> (0 < nP)%nat -> Forall (opFits n) ops ->
  historyInv nP (fun g p => collectedSince nG ops g p []) (fun g p => heldLast ops g p (initDSG n)) s ->
  writeMinMax levels nG nP ByWorkers s = Some (s', f) ->
  exists m, f = Some (minMaxLines levels m) /\ extremes n m (reportedValues nG nP n ops).
Proof.
  intros levels nG nP ops s s' f n HG HP HO HI E. unfold writeMinMax in E. cbn [callingGroups] in E.
  destruct (allSome _) as [mss|] eqn:EA; [|discriminate]. rewrite seq_length, Nat.eqb_refl in E. injection E as _ <-.
  exists (reduceBoth (map reduceBoth mss)). split; auto.
  apply allSome_map in EA.
  assert (F : Forall2 (extremes n) (map reduceBoth mss)
    (map (fun g i => flat_map (fun p => flat_map (valuesOf (Z.of_nat i)) (covered nG ops n g p)) (seq 0 nP)) (seq 0 nG))).
  { eapply Forall2_map_both; [exact EA|]. intros g ms _ X. cbn beta in X. apply allSome_map in X.
    eapply extremes_ext; [|apply (reduceBoth_extremes n ms (map (fun p i => flat_map (valuesOf (Z.of_nat i)) (covered nG ops n g p)) (seq 0 nP)))].
    - intros i x _. cbn beta. rewrite flat_map_map. tauto.
    - intros ->. inv X. destruct nP; [lia|discriminate].
    - rewrite <- (map_id ms). eapply Forall2_map_both; [exact X|]. intros p m Hp Em. cbn beta. apply in_seq in Hp.
      destruct (HI g p ltac:(lia)) as [K1 K2]. eapply ensureCollected_extremes; eauto. }
  assert (NE : map reduceBoth mss <> []).
  { intros X. apply map_eq_nil in X. subst mss. inv EA. destruct nG; [lia|discriminate]. }
  eapply extremes_ext; [|exact (reduceBoth_extremes n _ _ NE F)]. intros i x _. cbn beta. rewrite flat_map_map. unfold reportedValues. tauto.
Qed.

Lemma write_defined : forall levels nG nP c s, (exists r, writeMinMax levels nG nP c s = Some r) <->
  forall g p, enters nG c g = true -> (p < nP)%nat -> ensureCollected (s g p) <> None.
Proof.
  intros levels nG nP c s. transitivity (forall g, In g (callingGroups c nG) -> allSome (map (fun p => ensureCollected (s g p)) (seq 0 nP)) <> None).
  - rewrite <- allSome_defined. unfold writeMinMax. destruct (allSome _) as [mss|].
    + split; eauto.
    + split; intros [r X]; discriminate.
  - split.
    + intros H g p Hg Hp. apply callingGroups_In in Hg. specialize (H g Hg). destruct (allSome _) as [ms|] eqn:E; [|congruence].
      revert p Hp. assert (X : forall p, In p (seq 0 nP) -> ensureCollected (s g p) <> None) by (apply allSome_defined; eauto).
      intros p Hp. apply X. apply in_seq. lia.
    + intros H g Hg E. apply callingGroups_In in Hg.
      destruct (proj2 (allSome_defined (fun p => ensureCollected (s g p)) (seq 0 nP))) as [ys Y]; [|congruence].
      intros p Hp. apply in_seq in Hp. apply H; auto. lia.
Qed.

Lemma minMaxLines_In : forall levels m l mn mx, In (l, mn, mx) (minMaxLines levels m) <->
  exists i, (i < length levels)%nat /\ l = nth i levels [] /\ mn = nth i (fst m) 0%Qc /\ mx = nth i (snd m) 0%Qc /\ (mn < dblMax)%Qc.
Proof.
  intros levels m l mn mx. unfold minMaxLines. rewrite in_flat_map. split.
  - intros (i & Hi & X). cbv zeta in X. destruct (nth i (fst m) 0%Qc ?= dblMax)%Qc eqn:E; try destruct X as [X|[]]; try contradiction.
    injection X as <- <- <-. apply in_seq in Hi. exists i. repeat (split; [auto; lia|]). apply Qclt_alt. auto.
  - intros (i & Hi & -> & -> & -> & L). exists i. split; [apply in_seq; lia|]. cbv zeta.
    assert (E : (nth i (fst m) 0%Qc ?= dblMax)%Qc = Lt) by (apply -> Qclt_alt; exact L). rewrite E. now left.
Qed.

Lemma minMaxLines_NoDup : forall levels m, NoDup levels -> NoDup (map (fun x => fst (fst x)) (minMaxLines levels m)).
Proof.
  intros levels m ND. unfold minMaxLines.
  assert (G : forall l, NoDup l -> (forall i, In i l -> (i < length levels)%nat) ->
    NoDup (map (fun x : list Z * Qc * Qc => fst (fst x)) (flat_map (fun i => let mn := nth i (fst m) 0%Qc in let mx := nth i (snd m) 0%Qc in
                     match (mn ?= dblMax)%Qc with Lt => [(nth i levels [], mn, mx)] | _ => [] end) l))).
  { induction l as [|i l IH]; intros NDl HR; cbn [flat_map]; [constructor|]. inv NDl. cbv zeta in *.
    assert (IH' := IH H2 (fun k Hk => HR k (or_intror Hk))). destruct (nth i (fst m) 0%Qc ?= dblMax)%Qc; cbn [app map fst]; auto.
    constructor; auto. intros X. apply in_map_iff in X. destruct X as ([[l' a] b] & E & X). cbn [fst] in E. subst l'.
    apply in_flat_map in X. destruct X as (k & Hk & X). destruct (nth k (fst m) 0%Qc ?= dblMax)%Qc; try destruct X as [X|[]]; try contradiction.
    injection X as X _ _. assert (k = i); [|congruence].
    apply (proj1 (NoDup_nth levels []) ND); auto. apply HR; now right. apply HR; now left. }
  apply G; [apply seq_NoDup|]. intros i Hi. apply in_seq in Hi. lia.
Qed.
