(** C103: the combined solution on a grid of any level and the files with it. *)
From Verif Require Import Base TensorModel TensorProofs TensorProps PartitionModel PartitionProofs DecompModel DecompProofs DofModel DofProofs Level1dModel
  Level1dProofs LevelSetsModel LevelSetsProofs LevelSetsProps SubspaceModel SubspaceProofs SubspaceProps CombiSchemeModel CombiSchemeProofs CombiSchemeProps Hier1dModel Hier1dProofs HierMassProofs Hier1dProps
  DistHierModel DistHierProofs DistExchangeProofs DistPoleProofs HierNDModel HierNDProofs HierLinProofs HierNDProps
  SparseGridModel SparseGridProofs CombineModel SparseTransferProofs SparseGridProps ReduceModel ReduceProofs VoteProofs SubspaceReduceProofs
  CombiStepModel CombiStepProofs CombiInitProofs CombiStepProps SystemModel SystemProofs SystemHatProofs SystemProps SystemNodalProofs WideSystemModel WideSystemProofs WideSystemProps
  MigrateModel MigrateProofs MigrateProps QcTools InterpModel InterpProofs InterpProps CombiInterpProofs CombiInterpProps HatRefineProofs CombiUnchangedProps
  FileModel PlotModel PlotProofs PlotProps OutputModel OutputProofs.
From Coq Require Import QArith Qcanon Permutation.
Open Scope Z_scope.
Ltac Zify.zify_post_hook ::= idtac.

(** ** Values of the output grid *)

(** Filling a grid of any level that has any values from the sparse grid of any group, at any time after a combination of [all]. *)
Lemma fillOver_value : forall y esz tasks all S b t stale, wfSystem y VSparseGrid tasks -> mReachable y esz tasks (Some all) S ->
  (b < length tasks)%nat -> wfTask y t ->
  exists t', fillOver y stale (dsgOf S b) t = Some t' /\ sameKind t t' /\
    forall w, isPoint y t w -> valueAt y t' w =
      nodal y (sLevel t) (combinedOver y all (fun u => surplus y (sLevel u) (valueAt y u)) (sLevel t) (valueAt y t)) w.
Proof.
  intros y esz tasks all S b t stale W R Hb WT. destruct (mInv_of y esz tasks _ S W R) as (rest & EL & (A & A' & B & (PA & ts1 & F1 & FW))). pose proof W as (HY & HT & HV).
  assert (P1 : Permutation (map kind (concat tasks)) (map kind ts1)).
  { replace (map kind ts1) with (map kind all); auto. clear - F1. induction F1 as [|u u' l l' [K _] F IH]; auto. cbn [map]. rewrite <- IH. f_equal. symmetry. now apply sameKind_kind. }
  destruct (fillOver_ok y rest tasks HY EL HT ts1 (dsgOf S b) stale t) as (t' & E & K & RP); auto.
  { intros r Hr. unfold dsgOf. destruct (B r Hr) as [BL BF]. destruct (nth_error (sDsgs S r) b) as [p|] eqn:Ep; [|apply nth_error_None in Ep; lia].
    specialize (FW r Hr). rewrite Forall_forall in BF, FW. apply nth_error_In in Ep. split; [apply (FW p Ep)|apply (BF p Ep)]. }
  exists t'. split; auto. split; auto. destruct K as [d ->]. intros w Hw.
  assert (WA : Forall (wfTask y) all) by now apply (kinds_wf y _ _ PA).
  transitivity (nodal y (sLevel t) (combinedOver y ts1 (valueAt y) (sLevel t) (valueAt y t)) w); [exact (represents_box _ _ _ (taskCfg_wf y t HY WT) RP w Hw)|].
  unfold nodal. apply surplus_ext; auto. intros x Hx. apply (combinedOver_ext y all ts1); auto. clear - F1 WA HY. induction F1 as [|u u' l l' [[d ->] RU] F IH]; constructor; inversion WA; subst; auto.
  split; [reflexivity|]. split; [reflexivity|]. intros w Hw. apply (represents_box (taskCfg y (sLevel u)) _ _ (taskCfg_wf y u HY H1) RU w). exact Hw.
Qed.

(** Every subspace of level [L] is in the sparse grid and in the grid of a task. *)
Definition covered (y : Setup) (L : list Z) (all : list SysTask) : Prop :=
  forall l, Forall2 (fun a b => 1 <= a <= b) l L -> In l (yLevels y) /\ exists u, In u all /\ Forall2 Z.le l (sLevel u).
(** The systems [fst p] and [snd p] are those before and after a combination. *)
Definition combinedPair (y : Setup) (esz : Z) (tasks : list (list SysTask)) (p : System * System) : Prop :=
  exists o chunk order staleH staleD, mReachable y esz tasks o (fst p) /\ 0 < chunk < 2 ^ 31 /\
    combineSystem y VSparseGrid esz chunk order staleH staleD (fst p) = Some (snd p).
Definition combinedOf (y : Setup) (L : list Z) (S : System) : list Z -> Qc :=
  nodal y L (combinedOrZero y (concat (sTasks S)) (fun u => surplus y (sLevel u) (valueAt y u)) L).

Lemma covered_over : forall y tasks all t H old w, wfSetup y -> wfTask y t -> Permutation (map kind (concat tasks)) (map kind all) -> covered y (sLevel t) (concat tasks) -> isPoint y t w ->
  combinedOver y all H (sLevel t) old w = combinedOrZero y all H (sLevel t) w.
Proof.
  intros y tasks all t H old w HY WT PA HC Hw. destruct (HC _ (levelOf_range y t w HY WT Hw)) as (I & u & Hu & LE). unfold combinedOver, combinedOrZero. cbv zeta. destruct (in_dec _ _ _); [|contradiction].
  replace (existsb _ all) with true; auto. symmetry. destruct (kinds_In _ _ u (Permutation_sym PA) Hu) as (u0 & Hu0 & [d ->]). apply existsb_exists. exists u0. split; auto. apply vleb_spec; auto.
  clear - LE. cbn [withData sLevel] in LE. induction LE; cbn; auto.
Qed.

(** The outputs: one solution, or any number of them if all subspaces are covered. *)
Lemma outputs_ok : forall y esz tasks b stale ps t, wfSystem y VSparseGrid tasks -> Forall (combinedPair y esz tasks) ps ->
  (b < length tasks)%nat -> wfTask y t ->
  (length ps <= 1)%nat /\ (forall w, isPoint y t w -> valueAt y t w = 0%Qc) \/ covered y (sLevel t) (concat tasks) ->
  exists ts, outputGrids y stale (map (fun p => dsgOf (snd p) b) ps) t = Some ts /\
    Forall2 (fun p t' => sameKind t t' /\ forall w, isPoint y t w -> valueAt y t' w = combinedOf y (sLevel t) (fst p) w) ps ts.
Proof.
  intros y esz tasks b stale ps t W F Hb. revert t. induction F as [|p ps (o & chunk & order & sH & sD & R & HC & E) F IH]; intros t WT D.
  - exists []. split; [reflexivity|constructor].
  - pose proof W as (HY & HT & _). pose proof (m_combine y esz tasks o _ _ chunk order sH sD R HC E) as R'.
    destruct (fillOver_value y esz tasks _ (snd p) b t stale W R' Hb WT) as (t' & E1 & K & V).
    assert (WT' : wfTask y t') by now apply (sameKind_wf y t).
    assert (LE : sLevel t' = sLevel t) by (destruct K as [d ->]; reflexivity).
    assert (V' : forall w, isPoint y t w -> valueAt y t' w = combinedOf y (sLevel t) (fst p) w).
    { intros w Hw. rewrite V by auto. unfold combinedOf, nodal. apply surplus_ext; auto. intros x Hx. destruct D as [[_ Z0]|CV].
      - apply combinedOver_zero. now apply Z0.
      - destruct (mInv_of y esz tasks _ _ W R) as (rest & EL & (PK & _)). now apply (covered_over y tasks). }
    assert (REC : exists ts, outputGrids y stale (map (fun p => dsgOf (snd p) b) ps) t' = Some ts /\
      Forall2 (fun p t2 => sameKind t' t2 /\ forall w, isPoint y t' w -> valueAt y t2 w = combinedOf y (sLevel t') (fst p) w) ps ts).
    { destruct D as [[D Z0]|CV]; [|apply IH; auto; right; now rewrite LE]. destruct ps; [|cbn in D; lia]. exists []. split; [reflexivity|constructor]. }
    destruct REC as (ts & E2 & F2).
    exists (t' :: ts). cbn [map outputGrids]. rewrite E1, E2. split; auto. constructor; [now split|].
    eapply Forall2_imp2; [|exact F2]. intros q t2 [K2 V2]. split; [now apply (sameKind_trans t t')|]. intros w Hw. rewrite V2 by (unfold isPoint in *; now rewrite LE). now rewrite LE.
Qed.

(** In a dimension in which level [L] is larger than that of a task, the grids are hierarchized down to the level of the task. *)
Definition hierarchizedTo (y : Setup) (L : list Z) (all : list SysTask) : Prop :=
  forall u k, In u all -> (k < length (yRef y))%nat -> nth k (sLevel u) 0 < nth k L 0 ->
    nth k (yDims y) false = true /\ nth k (yLmin y) 0 <= nth k (sLevel u) 0.
(** The sparse grid has the subspaces of level [L] that some task has. *)
Definition hasSubspaces (y : Setup) (L : list Z) (all : list SysTask) : Prop :=
  forall l u, Forall2 (fun a b => 1 <= a <= b) l L -> In u all -> Forall2 Z.le l (sLevel u) -> In l (yLevels y).

Lemma combinedOf_interpolated : forall y S t w, wfSetup y -> hatSetup y -> Forall (wfTask y) (concat (sTasks S)) -> hierarchizedTo y (sLevel t) (concat (sTasks S)) ->
  hasSubspaces y (sLevel t) (concat (sTasks S)) -> wfTask y t -> isPoint y t w ->
  combinedOf y (sLevel t) S w = systemValue y S (coordinates y (sLevel t) w).
Proof.
  intros y S t w HY HH HA HE HL HT Hw. rewrite system_value by (auto; now apply coords_domain; auto). set (all := concat (sTasks S)) in *. rewrite Forall_forall in HA. pose proof (taskCfg_wf y t HY HT) as WC.
  assert (KD : forall k, In k (dims y) -> (k < length (hLevels (taskCfg y (sLevel t))))%nat) by (intros k K; apply dims_In in K; destruct HT as (L & _); cbn [taskCfg hLevels]; lia).
  transitivity (nodal y (sLevel t) (surplus y (sLevel t) (fun w => qsum (map (fun u => sCoeff u * interpOn y t u w)%Qc all))) w).
  - unfold combinedOf, nodal. apply surplus_ext; auto. intros v Hv. unfold surplus at 2. rewrite (opAll_sum SysTask (taskCfg y (sLevel t)) false (dims y) all sCoeff (interpOn y t) WC KD v Hv).
    assert (E : forall u, In u all -> opAll (taskCfg y (sLevel t)) false (dims y) (interpOn y t u) v = if vleb (levelOf y (sLevel t) v) (sLevel u) then surplus y (sLevel u) (valueAt y u) (sameIndex y (sLevel t) (sLevel u) v) else 0%Qc).
    { intros u Hu. exact (interpOn_surplus y t u v HY HH (fun k => HE u k Hu) HT (HA u Hu) Hv). }
    unfold combinedOrZero. cbv zeta. destruct (in_dec _ _ _) as [_|X].
    + apply qs_ext. intros u Hu. rewrite (E u Hu). destruct (vleb _ _); [reflexivity|ring].
    + symmetry. rewrite (qs_ext _ (fun _ => 0%Qc)); [apply qs_zero; auto|]. intros u Hu. rewrite (E u Hu). destruct (vleb _ _) eqn:V; [|ring]. exfalso. apply X.
      apply (HL _ u); auto; [now apply levelOf_range|]. apply vleb_spec in V; auto. rewrite levelOf_length. destruct (HA u Hu) as (U1 & _). lia.
  - apply (roundtrip_sys y t false); auto. now apply hat_invertible.
Qed.

(** ** C103 *)

(** parallelEval of one solution on any level, or of several ones on a level all of whose subspaces the tasks and the sparse grid have: every value that a group
    writes is the combined one. *)
Theorem C103_values : forall y esz tasks b stale ps L threads, wfSystem y VSparseGrid tasks -> Forall (combinedPair y esz tasks) ps ->
  (b < length tasks)%nat -> wfTask y (outputGrid L threads) -> (length ps <= 1)%nat \/ covered y L (concat tasks) ->
  exists ts, outputGrids y stale (map (fun p => dsgOf (snd p) b) ps) (outputGrid L threads) = Some ts /\
    Forall2 (fun p t' => forall w, isPoint y (outputGrid L threads) w -> valueAt y t' w =
      nodal y L (combinedOrZero y (concat (sTasks (fst p))) (fun u => surplus y (sLevel u) (valueAt y u)) L) w) ps ts.
Proof.
  intros y esz tasks b stale ps L threads W F Hb WT D. destruct (outputs_ok y esz tasks b stale ps (outputGrid L threads) W F Hb WT) as (ts & E & F2).
  - destruct D as [D|D]; [left; split; auto|now right].
  - exists ts. split; auto. eapply Forall2_imp2; [|exact F2]. intros p t' [_ V]. exact V.
Qed.

Lemma hierarchizedTo_kinds : forall y L a b, Permutation (map kind a) (map kind b) -> hierarchizedTo y L a -> hierarchizedTo y L b.
Proof. intros y L a b P H u k Hu. destruct (kinds_In _ _ u P Hu) as (u0 & H0 & [d ->]). exact (H u0 k H0). Qed.
Lemma hasSubspaces_kinds : forall y L a b, Permutation (map kind a) (map kind b) -> hasSubspaces y L a -> hasSubspaces y L b.
Proof. intros y L a b P H l u Hl Hu. destruct (kinds_In _ _ u P Hu) as (u0 & H0 & [d ->]). exact (H l u0 Hl H0). Qed.

(** With hat functions: in the .raw file of each solution, at the place of each point, is the value that [interpolateValues] gave for the coordinates of this point
    before the combination. *)
Theorem C103_raw_files : forall y esz tasks b stale ps L threads bytes order old, wfSystem y VSparseGrid tasks -> hatSetup y -> Forall (combinedPair y esz tasks) ps ->
  (b < length tasks)%nat -> wfTask y (outputGrid L threads) -> (length ps <= 1)%nat \/ covered y L (concat tasks) ->
  hierarchizedTo y L (concat tasks) -> hasSubspaces y L (concat tasks) ->
  smallParts (yProcs y) (globalSizes L (yBnds y)) (downsampleDecomposition (yDecs y) (yRef y) L (yBnds y)) ->
  0 < bytes -> Permutation order (zrange 0 (zprod (yProcs y))) ->
  exists files, parallelEvalRaw y L threads stale b (map snd ps) bytes order old = Some files /\
    Forall2 (fun p f => forall w, inBox (globalSizes L (yBnds y)) w ->
      readValue bytes f (bytes * sequentialIndex (globalSizes L (yBnds y)) w) = Some (systemValue y (fst p) (coordinates y L w))) ps files.
Proof.
  intros y esz tasks b stale ps L threads bytes order old W HH F Hb WT D HE HL SM HB HO. pose proof W as (HY & HT & _). set (t := outputGrid L threads) in *.
  destruct (outputs_ok y esz tasks b stale ps t W F Hb WT) as (ts & E & F2); [destruct D as [D|D]; [left; split; auto|now right]|].
  unfold parallelEvalRaw. rewrite map_map. fold t. rewrite E. cbn [option_map]. eexists. split; [reflexivity|].
  revert ts E F2. clear D. intros ts _ F2. induction F2 as [|p t' ps ts [K V] F2 IH]; constructor; [|apply IH; now inversion F].
  intros w Hw. change (isPoint y t w) in Hw. inversion F as [|? ? (o & chunk & od & sH & sD & R & HC & EC) F']; subst.
  destruct (mInv_of y esz tasks _ _ W R) as (rest & EL & (PK & _)). assert (WA : Forall (wfTask y) (concat (sTasks (fst p)))) by now apply (kinds_wf y _ _ PK).
  assert (WT' : wfTask y t') by now apply (sameKind_wf y t). destruct K as [d Ed].
  pose proof (task_stores y t' HY WT') as ST. unfold interpTask in ST. cbn [iDecs] in ST. assert (EL' : sLevel t' = L) by (rewrite Ed; reflexivity). rewrite EL' in ST.
  destruct WT as (L1 & _ & VD & _). change (sLevel t) with L in L1, VD.
  destruct (C97_raw_file bytes (yProcs y) (globalSizes L (yBnds y)) (downsampleDecomposition (yDecs y) (yRef y) L (yBnds y)) order (sData t') (valueAt y t') old HB VD) as (RV & _); auto.
  - pose proof HY as (DN & LB & _). intros N. apply (f_equal (@length _)) in N. rewrite globalSizes_length in N by lia. cbn in N. lia.
  - rewrite RV by exact Hw. f_equal. rewrite V by exact Hw. apply (combinedOf_interpolated y (fst p) t w); auto.
    + now apply (hierarchizedTo_kinds y L (concat tasks)).
    + now apply (hasSubspaces_kinds y L (concat tasks)).
    + now apply (sameKind_wf y t' t); [exists (sData t); rewrite Ed; reflexivity|].
Qed.

(** ** Example and limits *)
Definition exThreads (L : list Z) : Z -> list (list (list Z)) := fun _ => [getDownSet L].
(** The example system before and after one combination. *)
Definition exPairOf (v : CombinationVariant) (y : Setup) : option (System * System) :=
  match startSystem y v 8 exSys with
  | Some X => match combineSystem y v 8 3 (fun _ => [[0; 1]%nat]) exStale exStale X with
              | Some X1 => Some (X, X1)
              | None => None
              end
  | None => None
  end.
Definition exOutput (v : CombinationVariant) (y : Setup) (L : list Z) (b n : nat) : option (list (list Q)) :=
  match exPairOf v y with
  | Some (_, X1) => option_map (map (fun t => map (fun w => this (valueAt y t w)) (boxPoints [0; 0] (globalSizes L (yBnds y)))))
                      (outputGrids y exStale (repeat (dsgOf X1 b) n) (outputGrid L (exThreads L)))
  | None => None
  end.
Definition exDirect (v : CombinationVariant) (y : Setup) (L : list Z) : option (list Q) :=
  option_map (fun p => map (fun w => this (systemValue y (fst p) (coordinates y L w))) (boxPoints [0; 0] (globalSizes L (yBnds y)))) (exPairOf v y).

Lemma exGrid_wf : forall L, L = [2; 2] \/ L = [2; 1] -> wfTask exSetup (outputGrid L (exThreads L)) /\
  smallParts (yProcs exSetup) (globalSizes L (yBnds exSetup)) (downsampleDecomposition (yDecs exSetup) (yRef exSetup) L (yBnds exSetup)).
Proof.
  intros L HL. split.
  - split; [destruct HL as [-> | ->]; reflexivity|]. split; [intros [|[|k]] Hk; cbn in Hk; try lia; destruct HL as [-> | ->]; cbn; lia|]. split.
    + destruct HL as [-> | ->];
        (match goal with |- validDec ?a ?b ?c => let b' := eval vm_compute in b in let c' := eval vm_compute in c in change (validDec [2; 1] b' c') end;
         split; [reflexivity|]; split; [reflexivity|]; intros [|[|i]] Hi; cbn in Hi; try lia; (split; [reflexivity|]; split; [reflexivity|split]);
         [intros [|[|i]] [|[|j]] H; cbn in *; lia|intros [|[|i]] H; cbn in *; lia|intros [|i] [|j] H; cbn in *; lia|intros [|i] H; cbn in *; lia]).
    + intros r Hr. change (zprod (yProcs exSetup)) with 2 in Hr. split; [|split].
      * constructor; [|constructor]. destruct HL as [-> | ->]; apply C08_downset_sorted.
      * cbn [exThreads outputGrid sThreads concat]. rewrite app_nil_r. apply Permutation_refl.
      * assert (r = 0 \/ r = 1) as [-> | ->] by lia; destruct HL as [-> | ->]; vm_compute; reflexivity.
  - intros r Hr. change (zprod (yProcs exSetup)) with 2 in Hr. assert (r = 0 \/ r = 1) as [-> | ->] by lia; destruct HL as [-> | ->]; vm_compute; reflexivity.
Qed.
Lemma exPoint : forall w, w = [1; 1] \/ w = [1; 0] -> isPoint exSetup (outputGrid [2; 2] (exThreads [2; 2])) w.
Proof. intros w Hw. change (inBox [5; 5] w). apply inBox_nth. destruct Hw as [-> | ->]; (split; [reflexivity|]; intros [|[|i]] Hi; cbn in *; lia). Qed.
Lemma exSubspaces : forall L, L = [2; 2] \/ L = [2; 1] -> hierarchizedTo exSetup L (concat exSys) /\ hasSubspaces exSetup L (concat exSys).
Proof.
  intros L HL. split.
  - intros u [|[|k]] Hu Hk H; cbn in Hk; try lia; (split; [reflexivity|]); destruct Hu as [<-|[<-|[<-|[]]]]; cbn; lia.
  - intros l u Hl Hu LE. apply (exLevels_below u l Hu). assert (G : Forall (Z.le 1) l) by (clear - Hl; induction Hl; constructor; auto; lia). clear - G LE. induction LE; constructor; inversion G; subst; auto; lia.
Qed.
Lemma exCovered : covered exSetup [2; 1] (concat exSys).
Proof.
  intros l Hl. split; [apply (exLevels_below (exTask exSetup [2; 1] (toQc 1) (exNum 1)) l); [now left|exact Hl]|]. exists (exTask exSetup [2; 1] (toQc 1) (exNum 1)). split; [now left|]. cbn [exTask sLevel].
  eapply Forall2_imp2; [|exact Hl]. cbv beta. intros; lia.
Qed.
Lemma exPair_exists : exists p, exPairOf VSparseGrid exSetup = Some p /\ combinedPair exSetup 8 exSys p.
Proof.
  pose proof (C72_ex_hyps VSparseGrid) as W. destruct (C72_start exSetup VSparseGrid 8 exSys W) as (S & E & ET). pose proof (m_start exSetup 8 exSys S E) as R.
  destruct (combine_m exSetup 8 exSys None S 3 (fun _ => [[0; 1]%nat]) exStale exStale W R ltac:(lia)) as (S1 & E1 & _). exists (S, S1). split; [unfold exPairOf; now rewrite E, E1|].
  exists None, 3, (fun _ => [[0; 1]%nat]), exStale, exStale. split; [exact R|]. split; [lia|exact E1].
Qed.

Example C103_ex_hyps : exists p, wfSystem exSetup VSparseGrid exSys /\ hatSetup exSetup /\ combinedPair exSetup 8 exSys p /\
  wfTask exSetup (outputGrid [2; 2] (exThreads [2; 2])) /\ hierarchizedTo exSetup [2; 2] (concat exSys) /\ hasSubspaces exSetup [2; 2] (concat exSys) /\
  smallParts (yProcs exSetup) (globalSizes [2; 2] (yBnds exSetup)) (downsampleDecomposition (yDecs exSetup) (yRef exSetup) [2; 2] (yBnds exSetup)) /\
  Permutation [1; 0] (zrange 0 (zprod (yProcs exSetup))) /\
  wfTask exSetup (outputGrid [2; 1] (exThreads [2; 1])) /\ covered exSetup [2; 1] (concat exSys).
Proof.
  destruct exPair_exists as (p & _ & CP). exists p. split; [apply C72_ex_hyps|]. split; [apply C102_ex_hyps|]. split; auto. destruct (exGrid_wf [2; 2] (or_introl eq_refl)). destruct (exSubspaces [2; 2] (or_introl eq_refl)).
  split; auto. split; auto. split; auto. split; auto. split; [apply perm_swap|]. split; [apply exGrid_wf; now right|exact exCovered].
Qed.
(** One output of level (2,2), which is finer than all tasks, and two of level (2,1). *)
Example C103_ex : exOutput VSparseGrid exSetup [2; 2] 1 1 =
    Some [[4; 4; 4; 4; 4; 7; 7 # 4; -7 # 2; -35 # 4; -14; 16; 11 # 2; -5; -31 # 2; -26; 31; 61 # 4; -1 # 2; -65 # 4; -32; 52; 31; 10; -11; -32]]%Q /\
  option_map (fun l => [l]) (exDirect VSparseGrid exSetup [2; 2]) = exOutput VSparseGrid exSetup [2; 2] 1 1 /\
  option_map (fun l => [l; l]) (exDirect VSparseGrid exSetup [2; 1]) = exOutput VSparseGrid exSetup [2; 1] 0 2.
Proof. vm_compute. split; [|split]; reflexivity. Qed.

(** The grid is not set to zero between two solutions. Where the level has subspaces that are not in the sparse grid the second file contains a mixture with the
    first one: two equal solutions give different files. *)
Theorem C103_second_grid_refuted : exists y tasks p L threads t1 t2 w, wfSystem y VSparseGrid tasks /\ hatSetup y /\ combinedPair y 8 tasks p /\ wfTask y (outputGrid L threads) /\
  hierarchizedTo y L (concat tasks) /\ hasSubspaces y L (concat tasks) /\
  outputGrids y exStale [dsgOf (snd p) 0; dsgOf (snd p) 0] (outputGrid L threads) = Some [t1; t2] /\ isPoint y (outputGrid L threads) w /\
  valueAt y t1 w = systemValue y (fst p) (coordinates y L w) /\ valueAt y t2 w <> systemValue y (fst p) (coordinates y L w).
Proof.
  destruct exPair_exists as ([X X1] & EP & CP). destruct (exGrid_wf [2; 2] (or_introl eq_refl)) as (WT & _). destruct (exSubspaces [2; 2] (or_introl eq_refl)) as (HE & HS).
  assert (V : match exPairOf VSparseGrid exSetup with
    | Some (X, X1) => match outputGrids exSetup exStale [dsgOf X1 0; dsgOf X1 0] (outputGrid [2; 2] (exThreads [2; 2])) with
                      | Some [t1; t2] => this (valueAt exSetup t1 [1; 1]) = this (systemValue exSetup X (coordinates exSetup [2; 2] [1; 1])) /\ this (valueAt exSetup t2 [1; 1]) <> this (systemValue exSetup X (coordinates exSetup [2; 2] [1; 1]))
                      | _ => False end
    | None => False end) by (vm_compute; split; [reflexivity|discriminate]).
  rewrite EP in V. destruct (outputGrids _ _ _ _) as [[|t1 [|t2 [|]]]|] eqn:EO in V; try contradiction. destruct V as [V1 V2].
  exists exSetup, exSys, (X, X1), [2; 2], (exThreads [2; 2]), t1, t2, [1; 1]. split; [apply C72_ex_hyps|]. split; [apply C102_ex_hyps|]. split; [exact CP|]. split; [exact WT|]. split; [exact HE|]. split; [exact HS|]. split; [exact EO|].
  split; [apply exPoint; auto|]. split; [now apply Qc_is_canon; rewrite V1|]. intros E. apply V2. now rewrite E.
Qed.

(** With the other reductions a group has only its own subspaces: its file lacks those of the other groups. *)
Theorem C103_other_variants_refuted : forall v, v = VSubspace \/ v = VOutgroup -> wfSystem exSetup v exSys /\
  exists X X1 t1 w, startSystem exSetup v 8 exSys = Some X /\ combineSystem exSetup v 8 3 (fun _ => [[0; 1]%nat]) exStale exStale X = Some X1 /\
    outputGrids exSetup exStale [dsgOf X1 1] (outputGrid [2; 2] (exThreads [2; 2])) = Some [t1] /\ isPoint exSetup (outputGrid [2; 2] (exThreads [2; 2])) w /\
    valueAt exSetup t1 w <> systemValue exSetup X (coordinates exSetup [2; 2] w).
Proof.
  intros v Hv. split; [apply C72_ex_hyps|].
  assert (V : match exPairOf v exSetup with
    | Some (X, X1) => match outputGrids exSetup exStale [dsgOf X1 1] (outputGrid [2; 2] (exThreads [2; 2])) with
                      | Some [t1] => this (valueAt exSetup t1 [1; 0]) <> this (systemValue exSetup X (coordinates exSetup [2; 2] [1; 0]))
                      | _ => False end
    | None => False end) by (destruct Hv as [-> | ->]; vm_compute; discriminate).
  unfold exPairOf in V. destruct (startSystem exSetup v 8 exSys) as [X|] eqn:E1; [|contradiction]. destruct (combineSystem exSetup v 8 3 (fun _ => [[0; 1]%nat]) exStale exStale X) as [X1|] eqn:E2; [|contradiction].
  destruct (outputGrids _ _ _ _) as [[|t1 [|]]|] eqn:EO in V; try contradiction. exists X, X1, t1, [1; 0]. split; auto. split; auto. split; [exact EO|]. split; [apply exPoint; auto|]. intros E. apply V. now rewrite E.
Qed.

Print Assumptions C103_values.
Print Assumptions C103_raw_files.
Print Assumptions C103_second_grid_refuted.
Print Assumptions C103_other_variants_refuted.
