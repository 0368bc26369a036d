(** Properties of grids filled from the combined sparse grid: tasks that move to another group, and grids for output. *)
From Verif Require Import Base TensorModel TensorProofs TensorProps PartitionModel PartitionProofs DecompModel DecompProofs DofModel DofProofs Level1dModel
  Level1dProofs LevelSetsModel LevelSetsProofs LevelSetsProps SubspaceModel SubspaceProofs SubspaceProps CombiSchemeModel CombiSchemeProofs CombiSchemeProps Hier1dModel Hier1dProofs HierMassProofs Hier1dProps
  DistHierModel DistHierProofs DistExchangeProofs DistPoleProofs HierNDModel HierNDProofs HierLinProofs HierNDProps
  SparseGridModel SparseGridProofs CombineModel SparseTransferProofs SparseGridProps ReduceModel ReduceProofs VoteProofs SubspaceReduceProofs
  CombiStepModel CombiStepProofs CombiInitProofs CombiStepProps SystemModel SystemProofs SystemHatProofs SystemProps WideSystemModel WideSystemProofs WideSystemProps
  MigrateModel MigrateProofs.
From Coq Require Import QArith Qcanon Permutation.
Open Scope Z_scope.
Ltac Zify.zify_post_hook ::= idtac.

Lemma sizes_small : forall y tasks, wfSystem y VSparseGrid tasks ->
  forall r, 0 <= r < zprod (yProcs y) -> zsum (map (cntOf (map (localTask y r) (concat tasks))) (yLevels y)) < 2 ^ 31.
Proof. intros y tasks (_ & _ & HV) r Hr. specialize (HV r Hr). cbn [variantFits] in HV. now rewrite concat_map. Qed.

Lemma mInv_of : forall y esz tasks o S, wfSystem y VSparseGrid tasks -> mReachable y esz tasks o S ->
  exists rest, yLevels y = repeat 1 (length (yRef y)) :: rest /\ mInv y rest tasks o S.
Proof.
  intros y esz tasks o S W R. pose proof W as (HY & HT & _). pose proof HY as (_ & _ & _ & _ & _ & (rest & EL) & _). exists rest. split; auto.
  exact (mReachable_inv y esz rest tasks HY EL HT (sizes_small y tasks W) o S R).
Qed.

Lemma mReachable_wf : forall y esz tasks o S, wfSystem y VSparseGrid tasks -> mReachable y esz tasks o S -> Forall (wfTask y) (concat (sTasks S)).
Proof.
  intros y esz tasks o S W R. destruct (mInv_of y esz tasks o S W R) as (rest & EL & I). pose proof W as (HY & HT & _). eapply mInv_wf; eauto.
Qed.

(** ** Combinations of systems whose tasks move *)

Lemma combine_m : forall y esz tasks o S chunk order staleH staleD, wfSystem y VSparseGrid tasks -> mReachable y esz tasks o S -> 0 < chunk < 2 ^ 31 ->
  exists S', combineSystem y VSparseGrid esz chunk order staleH staleD S = Some S' /\ sameTasks (sTasks S) (sTasks S') /\
    Forall2 (combinedSys y (concat (sTasks S))) (concat (sTasks S)) (concat (sTasks S')).
Proof.
  intros y esz tasks o S chunk order sH sD W R HC. destruct (mInv_of y esz tasks o S W R) as (rest & EL & I). pose proof W as (HY & HT & HV).
  destruct (combine_inv y esz rest tasks HY EL HT (sizes_small y tasks W) o S chunk order sH sD I HC) as (S' & E & _ & K & F).
  exists S'. auto.
Qed.

(** C94: rescheduling in between does not disturb the combination. *)
Theorem C94_combination : forall y esz tasks o S chunk order staleH staleD, wfSystem y VSparseGrid tasks -> mReachable y esz tasks o S -> 0 < chunk < 2 ^ 31 ->
  exists S', combineSystem y VSparseGrid esz chunk order staleH staleD S = Some S' /\
    Forall2 (combinedSys y (concat (sTasks S))) (concat (sTasks S)) (concat (sTasks S')).
Proof. intros y esz tasks o S chunk order sH sD W R HC. destruct (combine_m y esz tasks o S chunk order sH sD W R HC) as (S' & E & _ & F). eauto. Qed.

(** The result is the one of a system that is distributed and rescheduled in any other way, also with another number of
    processes. *)
Theorem C94_distribution_independent :
  forall y esz tasks o S chunk order staleH staleD S1 y' esz' tasks' o' S' chunk' order' staleH' staleD' S1' us,
  sameProblem y y' -> wfSystem y VSparseGrid tasks -> wfSystem y' VSparseGrid tasks' ->
  mReachable y esz tasks o S -> mReachable y' esz' tasks' o' S' -> 0 < chunk < 2 ^ 31 -> 0 < chunk' < 2 ^ 31 ->
  Permutation us (concat (sTasks S')) -> Forall2 (sameFunction y y') (concat (sTasks S)) us ->
  combineSystem y VSparseGrid esz chunk order staleH staleD S = Some S1 ->
  combineSystem y' VSparseGrid esz' chunk' order' staleH' staleD' S' = Some S1' ->
  forall i k t t1 u u1, nth_error (concat (sTasks S)) i = Some t -> nth_error (concat (sTasks S1)) i = Some t1 ->
    nth_error (concat (sTasks S')) k = Some u -> nth_error (concat (sTasks S1')) k = Some u1 ->
    sameFunction y y' t u -> sameFunction y y' t1 u1.
Proof.
  intros y esz tasks o S chunk order sH sD S1 y' esz' tasks' o' S' chunk' order' sH' sD' S1' us SP W W' R R' HC HC' PM F E E'.
  destruct (combine_m y esz tasks o S chunk order sH sD W R HC) as (X & EX & _ & FX). rewrite E in EX. injection EX as <-.
  destruct (combine_m y' esz' tasks' o' S' chunk' order' sH' sD' W' R' HC') as (X & EX & _ & FX'). rewrite E' in EX. injection EX as <-.
  apply (combined_sameFunction y y' _ _ _ _ us); auto; [apply W|]. now apply (mReachable_wf y esz tasks o).
Qed.

(** ** Filling a grid *)

(** A grid of any level that is filled from the sparse grid of any group, at any time after a combination of the tasks [all],
    represents the function with the combined coefficients of [all] in the subspaces of the sparse grid. *)
Theorem C94_grid_filled : forall y esz tasks all S b t stale, wfSystem y VSparseGrid tasks -> mReachable y esz tasks (Some all) S ->
  (b < length tasks)%nat -> wfTask y t ->
  exists t', fillGrid y stale (dsgOf S b) t = Some t' /\ sLevel t' = sLevel t /\ sCoeff t' = sCoeff t /\
    forall w, isPoint y t w -> valueAt y t' w =
      nodal y (sLevel t) (combinedOrZero y all (fun u => surplus y (sLevel u) (valueAt y u)) (sLevel t)) w.
Proof.
  intros y esz tasks all S b t stale W R Hb WT. destruct (mInv_of y esz tasks _ S W R) as (rest & EL & (A & A' & B & (PA & ts1 & F1 & FW))). pose proof W as (HY & HT & HV).
  assert (P1 : Permutation (map kind (concat tasks)) (map kind ts1)).
  { replace (map kind ts1) with (map kind all); auto. clear - F1. induction F1 as [|u u' l l' [K _] F IH]; auto. cbn [map]. rewrite <- IH. f_equal. symmetry. now apply sameKind_kind. }
  destruct (fill_ok y rest tasks HY EL HT ts1 (dsgOf S b) stale t) as (t' & E & K & RP); auto.
  { intros r Hr. unfold dsgOf. destruct (B r Hr) as [BL BF]. destruct (nth_error (sDsgs S r) b) as [p|] eqn:Ep; [|apply nth_error_None in Ep; lia].
    specialize (FW r Hr). rewrite Forall_forall in BF, FW. apply nth_error_In in Ep. split; [apply (FW p Ep)|apply (BF p Ep)]. }
  exists t'. split; auto. destruct K as [d ->]. split; [reflexivity|]. split; [reflexivity|]. intros w Hw.
  assert (WA : Forall (wfTask y) all) by now apply (kinds_wf y _ _ PA).
  transitivity (nodal y (sLevel t) (combinedOrZero y ts1 (valueAt y) (sLevel t)) w); [exact (represents_box _ _ _ (taskCfg_wf y t HY WT) RP w Hw)|].
  unfold nodal. apply surplus_ext; auto. intros x Hx. apply (combinedOrZero_ext y all ts1); auto. clear - F1 WA HY. induction F1 as [|u u' l l' [[d ->] RU] F IH]; constructor; inversion WA; subst; auto.
  split; [reflexivity|]. split; [reflexivity|]. intros w Hw. apply (represents_box (taskCfg y (sLevel u)) _ _ (taskCfg_wf y u HY H1) RU w). exact Hw.
Qed.

(** ** Moving a task *)

(** After a combination any task can move to any group: it leaves the one list, becomes the last of the other one, with the same
    level and coefficient; the other tasks keep place and values. *)
Theorem C94_move : forall y esz tasks all S a k b stale ts t, wfSystem y VSparseGrid tasks -> mReachable y esz tasks (Some all) S ->
  nth_error (sTasks S) a = Some ts -> nth_error ts k = Some t -> (b < length tasks)%nat ->
  exists S' t', moveTask y esz stale a k b S = Some S' /\ sLevel t' = sLevel t /\ sCoeff t' = sCoeff t /\
    (forall w, isPoint y t w -> valueAt y t' w =
      nodal y (sLevel t) (combinedOrZero y all (fun u => surplus y (sLevel u) (valueAt y u)) (sLevel t)) w) /\
    forall g, nth_error (sTasks S') g = match nth_error (sTasks S) g with
      | Some gs => Some ((if (g =? a)%nat then firstn k gs ++ skipn (Datatypes.S k) gs else gs) ++ (if (g =? b)%nat then [t'] else []))
      | None => None
      end.
Proof.
  intros y esz tasks all S a k b stale ts t W R Ea Ek Hb. destruct (mInv_of y esz tasks _ S W R) as (rest & EL & I). pose proof W as (HY & HT & HV).
  assert (Hb' : (b < length (sTasks S))%nat) by (destruct I as (_ & -> & _); auto).
  destruct (move_inv y esz rest tasks HY EL HT (sizes_small y tasks W) all S a k b stale ts t I Ea Ek Hb') as (S' & t' & E & I' & ET & [d ->] & RP).
  exists S', (withData t d). split; auto. split; [reflexivity|]. split; [reflexivity|].
  assert (WT : wfTask y t). { pose proof (mReachable_wf y esz tasks _ S W R) as WS. rewrite Forall_forall in WS. apply WS. apply in_concat. exists ts. split; eapply nth_error_In; eauto. }
  split; [intros w Hw; exact (represents_box _ _ _ (taskCfg_wf y t HY WT) RP w Hw)|].
  intros g. rewrite ET, modAt_nth, modAt_nth. destruct (nth_error (sTasks S) g); destruct (g =? b)%nat, (g =? a)%nat; cbn [option_map]; rewrite ?app_nil_r; reflexivity.
Qed.

(** Any number of moves, one after the other. *)
Inductive moves (y : Setup) (esz : Z) : System -> System -> Prop :=
| moves_none : forall S, moves y esz S S
| moves_more : forall S S1 S2 a k b stale, moves y esz S S1 -> moveTask y esz stale a k b S1 = Some S2 -> moves y esz S S2.

Lemma Forall2_perm : forall {A B} (R : A -> B -> Prop) l l' m, Permutation l l' -> Forall2 R l m -> exists m', Permutation m m' /\ Forall2 R l' m'.
Proof.
  intros A B R l l' m P. revert m. induction P as [|x l l' P IH|x z l|l l1 l2 P1 IH1 P2 IH2]; intros m F.
  - inversion F. exists []. split; constructor.
  - inversion F as [|? b ? m0 H F0]; subst. destruct (IH m0 F0) as (m' & Q & F'). exists (b :: m'). split; constructor; auto.
  - inversion F as [|? b ? m0 H F0]; subst. inversion F0 as [|? c ? m1 H1 F1]; subst. exists (c :: b :: m1). split; [constructor|]. constructor; auto.
  - destruct (IH1 m F) as (m1 & Q1 & F1). destruct (IH2 m1 F1) as (m2 & Q2 & F2). exists m2. split; auto. now apply (Permutation_trans Q1).
Qed.

(** If the sparse grid has all subspaces of the tasks, tasks that move right after a combination keep their values. *)
Theorem C94_values_kept : forall y esz tasks o S chunk order staleH staleD S1 S2, wfSystem y VSparseGrid tasks -> mReachable y esz tasks o S -> 0 < chunk < 2 ^ 31 ->
  (forall t l, In t (concat tasks) -> Forall2 (fun x z => 1 <= x <= z) l (sLevel t) -> In l (yLevels y)) ->
  combineSystem y VSparseGrid esz chunk order staleH staleD S = Some S1 -> moves y esz S1 S2 ->
  exists us, Permutation us (concat (sTasks S2)) /\ Forall2 (sameValuesSys y) (concat (sTasks S1)) us.
Proof.
  intros y esz tasks o S chunk order sH sD S1 S2 W R HC HD E M. pose proof W as (HY & HT & HV).
  pose proof (m_combine y esz tasks o S S1 chunk order sH sD R HC E) as R1. set (all := concat (sTasks S)) in *.
  destruct (combine_m y esz tasks o S chunk order sH sD W R HC) as (X & EX & K & F). rewrite E in EX. injection EX as <-.
  pose proof (mReachable_wf y esz tasks _ S W R) as WS. rewrite Forall_forall in WS.
  destruct (mInv_of y esz tasks _ S W R) as (rest & EL & (PK & _)).
  assert (G : mReachable y esz tasks (Some all) S2 /\
    (forall t, In t (concat (sTasks S2)) -> forall w, isPoint y t w -> valueAt y t w = nodal y (sLevel t) (combinedOrZero y all (fun u => surplus y (sLevel u) (valueAt y u)) (sLevel t)) w) /\
    exists us, Permutation us (concat (sTasks S2)) /\ Forall2 (sameValuesSys y) (concat (sTasks S1)) us); [|apply G].
  induction M as [S0|S0 S3 S4 a k b stale M IH E3].
  - split; auto. split.
    + intros t1 Ht1 w Hw. destruct (Forall2_In_r _ _ _ _ F Ht1) as (t & Ht & (L1 & _ & V)). assert (Hw' : isPoint y t w) by (unfold isPoint in *; now rewrite L1 in Hw). rewrite (V w Hw'), L1.
      unfold nodal. apply surplus_ext; auto. intros x Hx. unfold combinedAt, combinedOrZero. cbv zeta. destruct (in_dec _ _ _) as [|N]; auto. exfalso. apply N.
      destruct (kinds_In _ _ t PK Ht) as (t0 & H0 & [d Ed]). apply (HD t0); auto. assert (sLevel t0 = sLevel t) as -> by (rewrite Ed; reflexivity).
      pose proof (levelOf_le y t x HY (WS t Ht) Hx) as LE. apply vleb_spec in LE; [|rewrite levelOf_length; destruct (WS t Ht); lia].
      apply (Forall2_nth_iff _ _ _ 0 0). apply (Forall2_nth_iff _ _ _ 0 0) in LE. destruct LE as [LL LE]. split; auto. intros i Hi. split; [|now apply LE].
      unfold levelOf. rewrite map_dims_nth by (now rewrite levelOf_length in Hi). lia.
    + exists (concat (sTasks S0)). split; [apply Permutation_refl|]. apply Forall2_refl'. intros t. split; auto.
  - destruct (IH E R1 F K) as (R3 & V3 & us & PU & FU). split; [eapply m_move; eauto|].
    pose proof E3 as E3'. unfold moveTask in E3'. destruct (nth_error (sTasks S3) a) as [ts|] eqn:Ea; [|discriminate]. destruct (nth_error ts k) as [t|] eqn:Ek; [|discriminate].
    destruct (Nat.ltb_spec b (length (sTasks S3))) as [Hb|]; [|discriminate]. clear E3'. destruct (mInv_of y esz tasks _ S3 W R3) as (rest' & EL' & I3).
    destruct (move_inv y esz rest' tasks HY EL' HT (sizes_small y tasks W) all S3 a k b stale ts t I3 Ea Ek Hb) as (S5 & t' & E5 & I5 & ET & K5 & RP). rewrite E3 in E5. injection E5 as <-.
    assert (Ht : In t (concat (sTasks S3))) by (apply in_concat; exists ts; split; eapply nth_error_In; eauto).
    pose proof (mReachable_wf y esz tasks _ S3 W R3) as W3. rewrite Forall_forall in W3. pose proof (W3 t Ht) as WT.
    assert (SV : sameValuesSys y t t' /\ forall w, isPoint y t' w -> valueAt y t' w = nodal y (sLevel t') (combinedOrZero y all (fun u => surplus y (sLevel u) (valueAt y u)) (sLevel t')) w).
    { destruct K5 as [d ->]. assert (X : forall w, isPoint y t w -> valueAt y (withData t d) w = nodal y (sLevel t) (combinedOrZero y all (fun u => surplus y (sLevel u) (valueAt y u)) (sLevel t)) w).
      { intros w Hw. exact (represents_box _ _ _ (taskCfg_wf y t HY WT) RP w Hw). }
      split; [|exact X]. split; [reflexivity|]. split; [reflexivity|]. intros w Hw. rewrite X by auto. symmetry. now apply V3. }
    set (mid := concat (modAt a (fun ts => firstn k ts ++ skipn (Datatypes.S k) ts) (sTasks S3))).
    assert (Q1 : Permutation (t :: mid) (concat (sTasks S3))) by (exact (concat_remove a k t (sTasks S3) ts Ea Ek)).
    assert (Q2 : Permutation (t' :: mid) (concat (sTasks S4))) by (rewrite ET; apply concat_add; now rewrite modAt_length).
    split.
    + intros u Hu. apply (Permutation_in _ (Permutation_sym Q2)) in Hu. destruct Hu as [<-|Hu]; [apply SV|]. apply V3. apply (Permutation_in _ Q1). now right.
    + destruct (Forall2_perm (sameValuesSys y) (t :: mid) us (t' :: mid)) as (us' & PU' & FU').
      * eapply Permutation_trans; [exact Q1|]. now apply Permutation_sym.
      * constructor; [apply SV|]. apply Forall2_refl'. intros x. split; auto.
      * exists us'. split; [apply (Permutation_trans (Permutation_sym PU')); exact Q2|].
        refine (Forall2_trans' (sameValuesSys y) _ _ _ _ FU FU'). intros x z v (A1 & A2 & A3) (B1 & B2 & B3). split; [congruence|]. split; [congruence|]. intros w Hw. rewrite B3; [now apply A3|]. unfold isPoint in *. now rewrite A1.
Qed.

(** ** Examples *)

(** Start, combine once, move the first task of the first group to the second one: the states after combination and move. *)
Definition exMoved (v : CombinationVariant) (y : Setup) (tasks : list (list SysTask)) : option (System * System) :=
  match startSystem y v 8 tasks with
  | None => None
  | Some X => match combineSystem y v 8 3 (fun _ => [[0; 1]%nat]) exStale exStale X with
              | None => None
              | Some S1 => option_map (pair S1) (moveTask y 8 exStale 0 0 1 S1)
              end
  end.

Example C94_ex_hyps : wfSystem exSetup VSparseGrid exSys /\
  (forall t l, In t (concat exSys) -> Forall2 (fun x z => 1 <= x <= z) l (sLevel t) -> In l (yLevels exSetup)) /\
  exists S S1 S2, startSystem exSetup VSparseGrid 8 exSys = Some S /\ combineSystem exSetup VSparseGrid 8 3 (fun _ => []) exStale exStale S = Some S1 /\
    moveTask exSetup 8 exStale 0 0 1 S1 = Some S2 /\ mReachable exSetup 8 exSys (Some (concat (sTasks S))) S2.
Proof.
  split; [apply C72_ex_hyps|]. split.
  - intros t l [<-|[<-|[<-|[]]]] H; cbn [exTask sLevel] in H; inversion H as [|x0 z0 l0 m0 H0 H']; subst; inversion H' as [|x1 z1 l1 m1 H1 H'']; subst; inversion H''; subst; cbn;
      [assert (x0 = 1 \/ x0 = 2) as [-> | ->] by lia; assert (x1 = 1) as -> by lia; auto|assert (x0 = 1) as -> by lia; assert (x1 = 1) as -> by lia; auto|
       assert (x1 = 1 \/ x1 = 2) as [-> | ->] by lia; assert (x0 = 1) as -> by lia; auto].
  - pose proof (C72_ex_hyps VSparseGrid) as W. destruct (C72_start exSetup VSparseGrid 8 exSys W) as (S & E & ET).
    pose proof (m_start exSetup 8 exSys S E) as R. destruct (combine_m exSetup 8 exSys None S 3 (fun _ => []) exStale exStale W R ltac:(lia)) as (S1 & E1 & K & _).
    pose proof (m_combine exSetup 8 exSys None S S1 3 (fun _ => []) exStale exStale R ltac:(lia) E1) as R1.
    rewrite ET in K. inversion K as [|ts0 ts1 l l' K0 K']; subst. inversion K0 as [|t0 t1 m m' K1 K'']; subst.
    destruct (C94_move exSetup 8 exSys _ S1 0 0 1 exStale (t1 :: m') t1 W R1) as (S2 & t' & E2 & _); [now rewrite <- H1| reflexivity|cbn; lia|].
    exists S, S1, S2. split; auto. split; auto. split; auto. now apply (m_move exSetup 8 exSys _ S1 S2 0 0 1 exStale).
Qed.

(** The values after combination and move; compare [C72_ex]. *)
Example C94_ex : option_map (fun p => (exValues exSetup (fst p), exValues exSetup (snd p))) (exMoved VSparseGrid exSetup exSys) = Some
  ([[[4; 7; 16; 31; 52; 4; -7 # 2; -5; -1 # 2; 10; 4; -14; -26; -32; -32]; [4; 16; 52; 4; -5; 10; 4; -26; -32]];
    [[4; 16; 52; 4; 11 # 2; 31; 4; -5; 10; 4; -31 # 2; -11; 4; -26; -32]]],
   [[[4; 16; 52; 4; -5; 10; 4; -26; -32]];
    [[4; 16; 52; 4; 11 # 2; 31; 4; -5; 10; 4; -31 # 2; -11; 4; -26; -32]; [4; 7; 16; 31; 52; 4; -7 # 2; -5; -1 # 2; 10; 4; -14; -26; -32; -32]]])%Q.
Proof. vm_compute. reflexivity. Qed.

(** The value at point [w] of the task before and after the move, and its level. *)
Definition exPair (v : CombinationVariant) (y : Setup) (tasks : list (list SysTask)) (w : list Z) : option (list Z * Q * list Z * Q) :=
  match exMoved v y tasks with
  | None => None
  | Some (S1, S2) =>
      match nth_error (nth 0 (sTasks S1) []) 0, nth_error (nth 1 (sTasks S2) []) 1 with
      | Some t, Some t' => Some (sLevel t, this (valueAt y t w), sLevel t', this (valueAt y t' w))
      | _, _ => None
      end
  end.
Lemma exPair_spec : forall v y tasks w L q L' q', exPair v y tasks w = Some (L, q, L', q') ->
  exists S S1 S2 t t', startSystem y v 8 tasks = Some S /\ combineSystem y v 8 3 (fun _ => [[0; 1]%nat]) exStale exStale S = Some S1 /\
    moveTask y 8 exStale 0 0 1 S1 = Some S2 /\ nth_error (nth 0 (sTasks S1) []) 0 = Some t /\ nth_error (nth 1 (sTasks S2) []) 1 = Some t' /\
    sLevel t = L /\ this (valueAt y t w) = q /\ sLevel t' = L' /\ this (valueAt y t' w) = q'.
Proof.
  intros v y tasks w L q L' q' E. unfold exPair, exMoved in E. destruct (startSystem y v 8 tasks) as [X|]; [|discriminate].
  destruct (combineSystem y v 8 3 (fun _ => [[0; 1]%nat]) exStale exStale X) as [S1|] eqn:E1; [|discriminate].
  destruct (moveTask y 8 exStale 0 0 1 S1) as [S2|] eqn:E2; [|discriminate]. cbn [option_map] in E.
  destruct (nth_error (nth 0 (sTasks S1) []) 0) as [t|] eqn:E3; [|discriminate]. destruct (nth_error (nth 1 (sTasks S2) []) 1) as [t'|] eqn:E4; [|discriminate].
  injection E as <- <- <- <-. exists X, S1, S2, t, t'. repeat split; auto.
Qed.

(** C94 fails with the other reductions: the new group lacks the subspaces that only the moved task has. The task has the value 7 at
    point (1,0) before and 10 after the move. *)
Theorem C94_other_variants_refuted : forall v, v = VSubspace \/ v = VOutgroup -> wfSystem exSetup v exSys /\
  exists S S1 S2 t t', startSystem exSetup v 8 exSys = Some S /\ combineSystem exSetup v 8 3 (fun _ => [[0; 1]%nat]) exStale exStale S = Some S1 /\
    moveTask exSetup 8 exStale 0 0 1 S1 = Some S2 /\ nth_error (nth 0 (sTasks S1) []) 0 = Some t /\ nth_error (nth 1 (sTasks S2) []) 1 = Some t' /\
    sLevel t = [2; 1] /\ this (valueAt exSetup t [1; 0]) = 7%Q /\ sLevel t' = [2; 1] /\ this (valueAt exSetup t' [1; 0]) = 10%Q.
Proof.
  intros v Hv. split; [apply C72_ex_hyps|]. apply exPair_spec. destruct Hv as [-> | ->]; vm_compute; reflexivity.
Qed.

(** With the chunked reduction, or before the first combination, the sparse grid has no data: a null pointer is read. *)
Theorem C94_no_data_refuted :
  (wfSystem exSetup VChunkedOutgroup exSys /\ exists S S1, startSystem exSetup VChunkedOutgroup 8 exSys = Some S /\
     combineSystem exSetup VChunkedOutgroup 8 3 (fun _ => [[0; 1]%nat]) exStale exStale S = Some S1 /\ moveTask exSetup 8 exStale 0 0 1 S1 = None) /\
  exists S, startSystem exSetup VSparseGrid 8 exSys = Some S /\ moveTask exSetup 8 exStale 0 0 1 S = None.
Proof.
  split.
  - split; [apply C72_ex_hyps|]. assert (E : exMoved VChunkedOutgroup exSetup exSys = None) by (vm_compute; reflexivity). unfold exMoved in E.
    assert (N : match startSystem exSetup VChunkedOutgroup 8 exSys with None => false | Some X =>
       match combineSystem exSetup VChunkedOutgroup 8 3 (fun _ => [[0; 1]%nat]) exStale exStale X with None => false | Some _ => true end end = true) by (vm_compute; reflexivity).
    destruct (startSystem exSetup VChunkedOutgroup 8 exSys) as [X|]; [|discriminate]. destruct (combineSystem exSetup VChunkedOutgroup 8 3 (fun _ => [[0; 1]%nat]) exStale exStale X) as [S1|] eqn:E1; [|discriminate].
    destruct (moveTask exSetup 8 exStale 0 0 1 S1) eqn:E2; [discriminate|]. exists X, S1. auto.
  - assert (N : match startSystem exSetup VSparseGrid 8 exSys with None => false | Some X => match moveTask exSetup 8 exStale 0 0 1 X with None => true | Some _ => false end end = true) by (vm_compute; reflexivity).
    destruct (startSystem exSetup VSparseGrid 8 exSys) as [X|]; [|discriminate]. exists X. split; auto. destruct (moveTask exSetup 8 exStale 0 0 1 X); [discriminate|reflexivity].
Qed.

(** The same tasks with a sparse grid of one subspace. *)
Definition exSetup1 : Setup :=
  {| yProcs := [2; 1]; yBnds := [2; 2]; yRef := [2; 2]; yDecs := [[0; 2]; [0]]; yDims := [true; true]; yBases := [Hat; Hat]; yLmin := [0; 0]; yLevels := [[1; 1]] |}.
Lemma exSetup1_wf : wfSystem exSetup1 VSparseGrid exSys.
Proof.
  destruct exSetup_wf as (A1 & A2 & A3 & A4 & A5 & _). split; [|split].
  - split; [exact A1|]. split; [exact A2|]. split; [exact A3|]. split; [exact A4|]. split; [exact A5|]. split; [exists []; reflexivity|]. split; [split; repeat constructor|repeat constructor; lia].
  - exact (exTasks_wf (exNum 1) (exNum 2) (exNum 5) (toQc 1) (toQc (-1)) (toQc 1)).
  - intros r Hr. change (zprod (yProcs exSetup1)) with 2 in Hr. assert (r = 0 \/ r = 1) as [-> | ->] by lia; vm_compute; reflexivity.
Qed.
(** What a moved task has in subspaces outside the sparse grid is lost, while the combination keeps it. *)
Theorem C94_outside_refuted : wfSystem exSetup1 VSparseGrid exSys /\
  exists S S1 S2 t t', startSystem exSetup1 VSparseGrid 8 exSys = Some S /\ combineSystem exSetup1 VSparseGrid 8 3 (fun _ => [[0; 1]%nat]) exStale exStale S = Some S1 /\
    moveTask exSetup1 8 exStale 0 0 1 S1 = Some S2 /\ nth_error (nth 0 (sTasks S1) []) 0 = Some t /\ nth_error (nth 1 (sTasks S2) []) 1 = Some t' /\
    sLevel t = [2; 1] /\ this (valueAt exSetup1 t [1; 0]) = 7%Q /\ sLevel t' = [2; 1] /\ this (valueAt exSetup1 t' [1; 0]) = 10%Q.
Proof. split; [apply exSetup1_wf|]. apply exPair_spec. vm_compute. reflexivity. Qed.

Print Assumptions C94_combination.
Print Assumptions C94_distribution_independent.
Print Assumptions C94_grid_filled.
Print Assumptions C94_move.
Print Assumptions C94_values_kept.
Print Assumptions C94_other_variants_refuted.
Print Assumptions C94_no_data_refuted.
Print Assumptions C94_outside_refuted.
