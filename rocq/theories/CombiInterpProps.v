(** C101: interpolating the combined solution of the whole system at the points of the component grids. *)
From Verif Require Import Base TensorModel TensorProofs TensorProps PartitionModel PartitionProofs DecompModel DecompProofs DofModel DofProofs Level1dModel
  Level1dProofs LevelSetsModel LevelSetsProofs LevelSetsProps SubspaceModel SubspaceProofs SubspaceProps CombiSchemeModel CombiSchemeProofs CombiSchemeProps Hier1dModel Hier1dProofs HierMassProofs Hier1dProps
  DistHierModel DistHierProofs DistExchangeProofs DistPoleProofs HierNDModel HierNDProofs HierLinProofs HierNDProps
  SparseGridModel SparseGridProofs CombineModel SparseTransferProofs SparseGridProps ReduceModel ReduceProofs VoteProofs SubspaceReduceProofs
  CombiStepModel CombiStepProofs CombiInitProofs CombiStepProps SystemModel SystemProofs SystemHatProofs SystemProps SystemNodalProofs
  QcTools InterpModel InterpProofs InterpProps CombiInterpProofs.
From Coq Require Import QArith Qcanon.
Open Scope Z_scope.
Ltac Zify.zify_post_hook ::= idtac.

(** A task of the system as interpolation sees it (InterpolationWorker.hpp:21-26). *)
Definition interpTask (y : Setup) (t : SysTask) : ITask :=
  {| iLevels := sLevel t; iDecs := downsampleDecomposition (yDecs y) (yRef y) (sLevel t) (yBnds y); iCoeff := sCoeff t; iData := sData t |}.
(** ProcessGroupWorker::interpolateValues at one coordinate, in the whole system. *)
Definition systemValue (y : Setup) (S : System) (xs : list Qc) : Qc :=
  interpolateValues (yProcs y) (yBnds y) xs (map (map (interpTask y)) (sTasks S)).

(** The coefficients of the tasks whose grid contains subspace [l] sum to one, for every subspace of every task. *)
Definition unityAll (all : list SysTask) : Prop :=
  forall l t, In t all -> Forall2 (fun a b => 1 <= a <= b) l (sLevel t) ->
    qsum (map (fun u => if vleb l (sLevel u) then sCoeff u else 0)%Qc all) = 1%Qc.

Lemma task_goodGrid : forall y t, wfSetup y -> wfTask y t -> goodGrid (yProcs y) (sLevel t) (yBnds y) (iDecs (interpTask y t)).
Proof.
  intros y t HY (L1 & L2 & L3 & _). pose proof HY as (D & LB & _ & _ & HK & _). split; [exact L3|]. split; [lia|]. split; [destruct (sLevel t); [cbn in L1; lia|discriminate]|]. split; apply Forall_forall; intros x Hx.
  - destruct (In_nth _ _ 0 Hx) as (k & Hk & <-). specialize (L2 k ltac:(lia)). destruct (HK k ltac:(lia)). lia.
  - destruct (In_nth _ _ 0 Hx) as (k & Hk & <-). destruct (HK k ltac:(lia)) as (_ & B & _). exact B.
Qed.
Lemma task_stores : forall y t, wfSetup y -> wfTask y t -> storesGrid (yProcs y) (globalSizes (sLevel t) (yBnds y)) (iDecs (interpTask y t)) (sData t) (valueAt y t).
Proof.
  intros y t HY HT r v Hr Hv. pose proof (taskCfg_wf y t HY HT) as WC. pose proof (C19_state_is_grid_function (taskCfg y (sLevel t)) (sData t) WC) as RP.
  destruct (lower_len _ WC r Hr) as (L1 & L2 & L3). set (lo := hLower (taskCfg y (sLevel t)) r) in *. set (up := hUpper (taskCfg y (sLevel t)) r) in *.
  change (In v (boxPoints lo up)) in Hv. change (sData t r (sequentialIndex (hLocalSizes (taskCfg y (sLevel t)) r) (vsub v lo)) = valueAt y t v).
  assert (LU : length up = length lo) by (unfold hLocalSizes in L3; fold lo up in L3; lia).
  apply boxPoints_In in Hv as [LV BV]; [|lia].
  rewrite RP; auto.
  - unfold valueAt. f_equal. fold lo. apply (nth_ext _ _ 0 0); [rewrite vadd_length by (rewrite vsub_length; lia); lia|]. intros i Hi. rewrite vadd_length in Hi by (rewrite vsub_length; lia). rewrite vadd_nth by (rewrite vsub_length; lia). rewrite vsub_nth by lia. lia.
  - apply inBox_nth. unfold hLocalSizes. fold lo up. split; [rewrite !vsub_length; lia|]. intros i Hi. rewrite vsub_length in Hi by lia. rewrite !vsub_nth by lia. specialize (BV i ltac:(lia)). lia.
Qed.

Lemma map_dims_nthQ : forall y (F : nat -> Qc) k, (k < length (yRef y))%nat -> nth k (map F (dims y)) 0%Qc = F k.
Proof. intros y F k Hk. unfold dims. rewrite (nth_indep _ 0%Qc (F 0%nat)) by now rewrite map_length, seq_length. rewrite map_nth, seq_nth by auto. reflexivity. Qed.
Lemma coords_onGrid : forall y t w, wfSetup y -> wfTask y t -> isPoint y t w -> onGrid (yBnds y) (sLevel t) (coordinates y (sLevel t) w).
Proof.
  intros y t w HY HT Hw. pose proof HY as (D & LB & _ & _ & HK & _). pose proof HT as (L1 & L2 & _). apply (isPoint_nth y t w HY HT) in Hw as [LW Hw]. exists w.
  split; [lia|]. split; [unfold coordinates; rewrite map_length; unfold dims; rewrite seq_length; lia|]. split; [lia|]. intros i Hi. rewrite L1 in Hi. destruct (HK i Hi) as (_ & B & _). specialize (L2 i Hi). specialize (Hw i Hi).
  split; [lia|]. split; [lia|]. split; [lia|]. unfold coordinates.
  rewrite map_dims_nthQ by auto. change (toQc (2 ^ nth i (sLevel t) 0)) with (zq (2 ^ nth i (sLevel t) 0)).
  replace (toQc (gridPos (nth i (yBnds y) 0) (nth i w 0))) with (zq (nth i w 0 + firstPos (nth i (yBnds y) 0))).
  - field. apply zq_nz. lia.
  - unfold toQc, zq, gridPos, firstPos. destruct (_ =? 0); do 3 f_equal; lia.
Qed.
Lemma coords_point : forall y t w, wfSetup y -> wfTask y t -> isPoint y t w -> pointCoords (yBnds y) (sLevel t) w = coordinates y (sLevel t) w.
Proof.
  intros y t w HY HT Hw. pose proof HY as (D & LB & _). pose proof HT as (L1 & _). apply (isPoint_nth y t w HY HT) in Hw as [LW _].
  assert (G : forall bs levels w, length bs = length levels -> length w = length levels -> pointCoords bs levels w = map (fun k => Qcdiv (toQc (gridPos (nth k bs 0) (nth k w 0))) (toQc (2 ^ nth k levels 0))) (seq 0 (length levels))).
  { clear. induction bs as [|b bs IH]; intros [|L levels] [|j w] H1 H2; try discriminate; [reflexivity|]. cbn [length pointCoords seq map nth]. f_equal.
    - unfold toQc, zq, gridPos, firstPos. f_equal. destruct (b =? 0); do 3 f_equal; lia.
    - rewrite IH by (cbn in *; lia). rewrite <- seq_shift, map_map. reflexivity. }
  rewrite G by lia. unfold coordinates, dims. now rewrite L1.
Qed.
Lemma coords_domain : forall y t w, wfSetup y -> wfTask y t -> isPoint y t w ->
  Forall2 (fun b x => (0 <= x)%Qc /\ (x <= 1)%Qc /\ (b = 1 -> (x < 1)%Qc)) (yBnds y) (coordinates y (sLevel t) w).
Proof.
  intros y t w HY HT Hw. destruct (coords_onGrid y t w HY HT Hw) as (v & A & B & C & G). apply (Forall2_nth_iff _ _ _ 0 0%Qc). split; [lia|]. intros i Hi.
  destruct (G i ltac:(lia)) as (G1 & G2 & G3 & G4). set (x := nth i _ 0%Qc) in *. set (b := nth i (yBnds y) 0) in *. set (j := nth i v 0) in *. set (L := nth i (sLevel t) 0) in *.
  pose proof (Z.pow_pos_nonneg 2 L ltac:(lia) ltac:(lia)) as PN. assert (Pz : (0 < zq (2 ^ L))%Qc) by (rewrite <- zq_0; apply zq_lt; lia). unfold firstPos in G4.
  split; [|split].
  - apply Qcnot_lt_le. intros X. apply (Qcmult_lt_compat_r _ _ _ Pz) in X. rewrite G4 in X. replace (0 * zq (2 ^ L))%Qc with (zq 0) in X by (rewrite zq_0; ring). apply zq_lt_inv in X. destruct (b =? 0); lia.
  - apply Qcnot_lt_le. intros X. apply (Qcmult_lt_compat_r _ _ _ Pz) in X. rewrite G4 in X. replace (1 * zq (2 ^ L))%Qc with (zq (2 ^ L)) in X by ring. apply zq_lt_inv in X. destruct (Z.eqb_spec b 0); lia.
  - intros B1. apply Qcnot_le_lt. intros X. apply (Qcmult_le_compat_r _ _ (zq (2 ^ L))) in X; [|now apply Qclt_le_weak]. rewrite G4 in X.
    replace (1 * zq (2 ^ L))%Qc with (zq (2 ^ L)) in X by ring. apply zq_le_inv in X. destruct (Z.eqb_spec b 0); lia.
Qed.

(** What interpolation gives: the sum of coefficient times interpolant. *)
Lemma system_value : forall y S xs, wfSetup y -> Forall (wfTask y) (concat (sTasks S)) ->
  Forall2 (fun b x => (0 <= x)%Qc /\ (x <= 1)%Qc /\ (b = 1 -> (x < 1)%Qc)) (yBnds y) xs ->
  systemValue y S xs = qsum (map (fun u => sCoeff u * interpolant (sLevel u) (yBnds y) (valueAt y u) xs)%Qc (concat (sTasks S))).
Proof.
  intros y S xs HY HT HX. unfold systemValue. rewrite Forall_forall in HT.
  rewrite (C64_interpolated_combination _ _ _ _ (fun k => gridFunction (taskCfg y (iLevels k)) (iData k)) HX).
  - rewrite <- (concat_map (interpTask y)), map_map. reflexivity.
  - intros k Hk. rewrite <- (concat_map (interpTask y)) in Hk. apply in_map_iff in Hk as (t & <- & Ht). split; [now apply task_goodGrid; auto|]. now apply task_stores; auto.
Qed.

(** ** C101 *)

(** If the tasks hold samples of a function, the interpolated combined solution has the values of this function at all points of all
    component grids, also of those far finer than a single task (the interpolation property of the combination technique). *)
Theorem C101_function : forall y S f t w, wfSetup y -> Forall (wfTask y) (concat (sTasks S)) -> unityAll (concat (sTasks S)) ->
  (forall u v, In u (concat (sTasks S)) -> isPoint y u v -> valueAt y u v = f (coordinates y (sLevel u) v)) ->
  In t (concat (sTasks S)) -> isPoint y t w ->
  systemValue y S (coordinates y (sLevel t) w) = f (coordinates y (sLevel t) w).
Proof.
  intros y S f t w HY HT HU HF Ht Hw. rewrite system_value by (auto; apply coords_domain; auto; rewrite Forall_forall in HT; auto). rewrite Forall_forall in HT.
  rewrite (qs_ext _ (fun u => sCoeff u * sampled (sLevel u) (yBnds y) f (coordinates y (sLevel t) w))%Qc).
  - assert (LT : forall u, In u (concat (sTasks S)) -> length (sLevel u) = length (yRef y) /\ Forall (Z.le 1) (sLevel u)).
    { intros u Hu. destruct (HT u Hu) as (L1 & L2 & _). split; auto. apply Forall_forall. intros x Hx. destruct (In_nth _ _ 0 Hx) as (k & Hk & <-). specialize (L2 k ltac:(lia)). lia. }
    apply (combination_interpolates _ sCoeff sLevel _ (sLevel t)); [now apply coords_onGrid; auto|now apply LT| |].
    + intros u Hu. destruct (LT u Hu), (LT t Ht). split; auto; congruence.
    + intros m Hm. now apply (HU m t).
  - intros u Hu. f_equal. unfold sampled, interpolant. apply qs_ext. intros v Hv. f_equal.
    assert (LG : length (globalSizes (sLevel u) (yBnds y)) = length (sLevel u)) by (apply globalSizes_length; destruct (HT u Hu) as (L1 & _); destruct HY as (_ & LB & _); lia).
    assert (Pv : isPoint y u v) by (unfold isPoint; apply boxPoints_sizes_In; now rewrite LG).
    rewrite HF by auto. f_equal. symmetry. now apply coords_point; auto.
Qed.

(** Tasks that agree at common points sample one function. *)
Definition findValue (y : Setup) (all : list SysTask) (xs : list Qc) : Qc :=
  match find (fun p => if list_eq_dec Qc_eq_dec (coordinates y (sLevel (fst p)) (snd p)) xs then true else false)
             (flat_map (fun t => map (fun w => (t, w)) (boxPoints (repeat 0 (length (sLevel t))) (globalSizes (sLevel t) (yBnds y)))) all) with
  | Some p => valueAt y (fst p) (snd p)
  | None => 0%Qc
  end.
Lemma coords_samePoint : forall y t u w w', wfTask y t -> wfTask y u -> coordinates y (sLevel t) w = coordinates y (sLevel u) w' -> samePoint y (sLevel t) (sLevel u) w w'.
Proof.
  intros y t u w w' (_ & LT & _) (_ & LU & _) E k Hk. unfold coordinates in E. specialize (LT k Hk). specialize (LU k Hk).
  assert (EQ : forall (f g : nat -> Qc) l, map f l = map g l -> forall x, In x l -> f x = g x).
  { clear. induction l as [|a l IH]; intros E x Hx; [destruct Hx|]. cbn in E. injection E as E1 E2. destruct Hx as [<-|H]; auto. }
  apply (EQ _ _ _) with (x := k) in E; [|apply dims_In; auto]. cbv beta in E. apply toQc_inj. rewrite !toQc_mul.
  assert (N1 : toQc (2 ^ nth k (sLevel t) 0) <> 0%Qc) by (apply (zq_nz (nth k (sLevel t) 0)); lia). assert (N2 : toQc (2 ^ nth k (sLevel u) 0) <> 0%Qc) by (apply (zq_nz (nth k (sLevel u) 0)); lia).
  set (a := toQc (2 ^ nth k (sLevel t) 0)) in *. set (b := toQc (2 ^ nth k (sLevel u) 0)) in *. set (p := toQc (gridPos _ (nth k w 0))) in *. set (q := toQc (gridPos _ (nth k w' 0))) in *.
  transitivity ((p / a) * (a * b))%Qc; [field; auto|]. rewrite E. field. auto.
Qed.
Lemma findValue_point : forall y all t w, wfSetup y -> Forall (wfTask y) all -> fitTogether y all -> In t all -> isPoint y t w -> findValue y all (coordinates y (sLevel t) w) = valueAt y t w.
Proof.
  intros y all t w HY HT HF Ht Hw. rewrite Forall_forall in HT. unfold findValue.
  assert (LG : forall u, In u all -> length (globalSizes (sLevel u) (yBnds y)) = length (sLevel u)) by (intros u Hu; apply globalSizes_length; destruct (HT u Hu) as (L1 & _); destruct HY as (_ & LB & _); lia).
  destruct (find _ _) as [[u v]|] eqn:EF.
  - apply find_some in EF as [IN E]. cbn [fst snd] in *. destruct (list_eq_dec _ _ _) as [EC|]; [|discriminate]. apply in_flat_map in IN as (u' & Hu & IN). apply in_map_iff in IN as (v' & [= -> ->] & Hv).
    rewrite <- (LG u Hu) in Hv. apply boxPoints_sizes_In in Hv. apply (HF u t); auto. apply coords_samePoint; auto.
  - exfalso.
    assert (IN : In (t, w) (flat_map (fun t => map (fun w => (t, w)) (boxPoints (repeat 0 (length (sLevel t))) (globalSizes (sLevel t) (yBnds y)))) all)).
    { apply in_flat_map. exists t. split; auto. apply in_map. rewrite <- (LG t Ht). now apply boxPoints_sizes_In. }
    pose proof (find_none _ _ EF _ IN) as X. cbn [fst snd] in X. destruct (list_eq_dec _ _ _); [discriminate|congruence].
Qed.

(** If all tasks agree at common grid points, interpolation gives the value of a task at its grid points. *)
Theorem C101_common_values : forall y S t w, wfSetup y -> Forall (wfTask y) (concat (sTasks S)) -> unityAll (concat (sTasks S)) ->
  fitTogether y (concat (sTasks S)) -> In t (concat (sTasks S)) -> isPoint y t w ->
  systemValue y S (coordinates y (sLevel t) w) = valueAt y t w.
Proof.
  intros y S t w HY HT HU HF Ht Hw. rewrite (C101_function y S (findValue y (concat (sTasks S))) t w); auto; [now apply findValue_point|].
  intros u v Hu Hv. symmetry. now apply findValue_point.
Qed.

(** After a combination with hat functions (whatever the tasks held before) they do, so the interpolated combined solution agrees with
    every task at all its grid points. *)
(** Every subspace of every task takes part in the combination; one that does not (the sparse grid may be created for smaller levels than the
    scheme) belongs to one task only, with coefficient one. *)
Definition sharedSubspaces (y : Setup) (all : list SysTask) : Prop :=
  forall t l, In t all -> Forall2 (fun a b => 1 <= a <= b) l (sLevel t) ->
    In l (yLevels y) \/ (sCoeff t = 1%Qc /\ filter (fun u => vleb l (sLevel u)) all = [t]).
Lemma levelOf_range : forall y t w, wfSetup y -> wfTask y t -> isPoint y t w -> Forall2 (fun a b => 1 <= a <= b) (levelOf y (sLevel t) w) (sLevel t).
Proof.
  intros y t w HY HT Hw. pose proof (levelOf_le y t w HY HT Hw) as LE. destruct HT as (L1 & _).
  apply vleb_spec in LE; [|rewrite levelOf_length; lia]. apply (Forall2_nth_iff _ _ _ 0 0) in LE as [L LE]. apply (Forall2_nth_iff _ _ _ 0 0). split; auto. intros i Hi. specialize (LE i Hi). split; auto.
  rewrite levelOf_length in Hi. unfold levelOf. rewrite map_dims_nth by auto. lia.
Qed.
Lemma samePoint_same : forall y t w w', wfSetup y -> wfTask y t -> isPoint y t w -> isPoint y t w' -> samePoint y (sLevel t) (sLevel t) w w' -> w = w'.
Proof.
  intros y t w w' HY HT Hw Hw' SP. apply (isPoint_nth y t w HY HT) in Hw as [L P]. apply (isPoint_nth y t w' HY HT) in Hw' as [L' P'].
  apply (nth_ext _ _ 0 0); [congruence|]. intros k Hk. specialize (SP k ltac:(lia)). apply Z.mul_reg_r in SP; [|pose proof (Z.pow_pos_nonneg 2 (nth k (sLevel t) 0)); destruct HT as (_ & L2 & _); specialize (L2 k ltac:(lia)); lia].
  unfold gridPos in SP. destruct (_ =? 0); lia.
Qed.
Lemma combined_fit : forall y all t u t' u', wfSetup y -> hatSetup y -> Forall (wfTask y) all -> In t all -> In u all ->
  sharedSubspaces y all ->
  combinedSys y all t t' -> combinedSys y all u u' -> agreeAll y t u (valueAt y t') (valueAt y u').
Proof.
  intros y all t u t' u' HY HH HT Ht Hu HL (_ & _ & C1) (_ & _ & C2) w w' Hw Hw' SP. rewrite C1, C2 by auto. rewrite Forall_forall in HT.
  revert w w' Hw Hw' SP. change (agreeAll y t u (nodal y (sLevel t) (combinedAt y all (fun u0 => surplus y (sLevel u0) (valueAt y u0)) t)) (nodal y (sLevel u) (combinedAt y all (fun u0 => surplus y (sLevel u0) (valueAt y u0)) u))).
  apply nodal_agree; auto. intros w w' Hw Hw' SP. unfold combinedAt. cbv zeta. rewrite (samePoint_level y t u w w') by auto.
  destruct (in_dec _ _ _) as [_|X].
  - f_equal. apply map_ext_in. intros z Hz. rewrite (samePoint_index y t u z w w') by auto. reflexivity.
  - pose proof (levelOf_range y u w' HY (HT u Hu) Hw') as R1.
    assert (R2 : Forall2 (fun a b => 1 <= a <= b) (levelOf y (sLevel u) w') (sLevel t)) by (rewrite (samePoint_level y t u w w') by auto; apply levelOf_range; auto).
    rewrite (samePoint_level y t u w w') in R2 by auto. destruct (HL t _ Ht R2) as [C|(_ & E)]; [contradiction|].
    assert (IN : In u (filter (fun x => vleb (levelOf y (sLevel t) w) (sLevel x)) all)) by (apply filter_In; split; auto; rewrite <- (samePoint_level y t u w w') by auto; apply levelOf_le; auto).
    rewrite E in IN. destruct IN as [<-|[]]. f_equal. apply (samePoint_same y t w w'); auto.
Qed.
Theorem C101_after_combination : forall y v esz tasks S S' chunk order staleH staleD t w, wfSystem y v tasks -> hatSetup y -> sysReachable y v esz tasks S ->
  0 < chunk < 2 ^ 31 -> allOrders y S order -> unityAll (concat (sTasks S)) ->
  sharedSubspaces y (concat (sTasks S)) ->
  combineSystem y v esz chunk order staleH staleD S = Some S' ->
  In t (concat (sTasks S')) -> isPoint y t w ->
  systemValue y S' (coordinates y (sLevel t) w) = valueAt y t w.
Proof.
  intros y v esz tasks S S' chunk order sH sD t w W HH R HC HO HU HL E Ht Hw.
  destruct (combine_sys y v esz tasks S chunk order sH sD W R HC HO) as (X & EX & R' & ST & F). rewrite E in EX. injection EX as <-.
  pose proof W as (HY & HT & _). pose proof (sysReachable_inv _ _ _ _ _ W R) as (I & _). pose proof (sysReachable_inv _ _ _ _ _ W R') as (I' & _).
  assert (WT : Forall (wfTask y) (concat (sTasks S))) by (eapply sameTasks_wf; eauto). assert (WT' : Forall (wfTask y) (concat (sTasks S'))) by (eapply sameTasks_wf; eauto).
  apply C101_common_values; auto.
  - intros l t1 Ht1 LE. destruct (Forall2_In_r _ _ _ _ F Ht1) as (t0 & Ht0 & (L1 & _ & _)).
    rewrite <- (HU l t0 Ht0) by (now rewrite <- L1).
    assert (F' : Forall2 (fun t t' => sLevel t' = sLevel t /\ sCoeff t' = sCoeff t) (concat (sTasks S)) (concat (sTasks S'))) by (eapply Forall2_imp2; [|exact F]; intros a b (A & B & _); auto).
    clear - F'. induction F' as [|a b la lb (A & B) G IH]; auto. cbn [map]. change (qsum (?a :: ?b)) with (a + qsum b)%Qc. now rewrite IH, A, B.
  - intros a b Ha Hb. destruct (Forall2_In_r _ _ _ _ F Ha) as (a0 & Ha0 & CA). destruct (Forall2_In_r _ _ _ _ F Hb) as (b0 & Hb0 & CB).
    pose proof (combined_fit y (concat (sTasks S)) a0 b0 a b HY HH WT Ha0 Hb0 HL CA CB) as G. destruct CA as (A1 & _). destruct CB as (B1 & _).
    intros z z' Hz Hz' SP. unfold isPoint in Hz, Hz'. rewrite A1 in Hz, SP. rewrite B1 in Hz', SP. now apply G.
Qed.

(** Both hold for the combination schemes of the library. *)
Lemma scheme_unityAll : forall y lmin lmax s all, Forall (wfTask y) all -> Forall2 Z.le lmin lmax -> lmin <> [] ->
  Forall (fun x => 1 <= x) lmin -> schemeOf lmin lmax s -> sysTasksOf s all -> unityAll all.
Proof.
  intros y lmin lmax s all HA F N P HS TO l t Ht LE. apply (scheme_unity_level y lmin lmax s all l t); auto. eapply Forall2_imp2; [|exact LE]. cbn. intros; lia.
Qed.
Theorem C101_scheme : forall y v esz tasks S f lmin lmax s t w, wfSystem y v tasks -> sysReachable y v esz tasks S ->
  Forall2 Z.le lmin lmax -> lmin <> [] -> Forall (fun x => 1 <= x) lmin -> schemeOf lmin lmax s -> sysTasksOf s (concat tasks) ->
  (forall u v, In u (concat (sTasks S)) -> isPoint y u v -> valueAt y u v = f (coordinates y (sLevel u) v)) ->
  In t (concat (sTasks S)) -> isPoint y t w ->
  systemValue y S (coordinates y (sLevel t) w) = f (coordinates y (sLevel t) w).
Proof.
  intros y v esz tasks S f lmin lmax s t w W R F N P HS TO HF Ht Hw. pose proof W as (HY & HT & _). pose proof (sysReachable_inv _ _ _ _ _ W R) as (I & _).
  assert (WT : Forall (wfTask y) (concat (sTasks S))) by (eapply sameTasks_wf; eauto).
  apply C101_function; auto. apply (scheme_unityAll y lmin lmax s); auto. eapply sameTasks_scheme; eauto.
Qed.

(** ** Examples *)

(** The tasks of [exSampled] hold samples of [exFun] and meet the hypotheses; their combination has the values of [exFun] at all points of
    all three grids, but not at (1/8, 1/4), which is no point of any of them. *)
Example C101_ex_hyps : unityAll (concat exSampled) /\ fitTogether exSetup (concat exSampled) /\ sharedSubspaces exSetup (concat exSampled).
Proof.
  destruct (C74_ex_hyps VOutgroup) as ((HY & HT & _) & _ & HS & TO & HF). split; [|split].
  - apply (scheme_unityAll exSetup [1; 1] [2; 2] (classicalScheme [1; 1] [2; 2])); auto; [repeat constructor; lia|discriminate|repeat constructor; lia].
  - intros t u Ht Hu w w' Hw Hw' SP. rewrite !HF by auto. f_equal. unfold coordinates. apply map_ext_in. intros k Hk. apply dims_In in Hk. specialize (SP k Hk).
    rewrite Forall_forall in HT. destruct (HT t Ht) as (_ & L1 & _). destruct (HT u Hu) as (_ & L2 & _). specialize (L1 k Hk). specialize (L2 k Hk). apply (f_equal toQc) in SP. rewrite !toQc_mul in SP.
    assert (N1 : toQc (2 ^ nth k (sLevel t) 0) <> 0%Qc) by (apply (zq_nz (nth k (sLevel t) 0)); lia). assert (N2 : toQc (2 ^ nth k (sLevel u) 0) <> 0%Qc) by (apply (zq_nz (nth k (sLevel u) 0)); lia).
    set (a := toQc (2 ^ nth k (sLevel t) 0)) in *. set (b := toQc (2 ^ nth k (sLevel u) 0)) in *. set (p := toQc (gridPos _ (nth k w 0))) in *. set (q := toQc (gridPos _ (nth k w' 0))) in *.
    transitivity ((p * b) / (a * b))%Qc; [field; auto|]. rewrite SP. field. auto.
  - intros x l Hx F. destruct Hx as [<-|[<-|[<-|[]]]]; cbn [sLevel exTask] in F; inversion F as [|a b' l' bs Ha F1]; subst; inversion F1 as [|a' b'' l'' bs' Ha' F2]; subst; inversion F2; subst;
    assert (a = 1 \/ a = 2) as [-> | ->] by lia; assert (a' = 1 \/ a' = 2) as [-> | ->] by lia; first [lia|cbn; tauto].
Qed.
Definition exPoints : list (list Qc) :=
  flat_map (fun L => map (coordinates exSetup L) (boxPoints [0; 0] (globalSizes L [2; 2]))) [[2; 1]; [1; 1]; [1; 2]].
Example C101_ex : match startSystem exSetup VOutgroup 8 exSampled with
  | Some X => map (fun x => this (systemValue exSetup X x)) exPoints = map (fun x => this (exFun x)) exPoints /\
              systemValue exSetup X [(1 / toQc 8)%Qc; (1 / toQc 4)%Qc] <> exFun [(1 / toQc 8)%Qc; (1 / toQc 4)%Qc]
  | None => False
  end.
Proof. vm_compute. split; [reflexivity|]. intros E. apply (f_equal this) in E. vm_compute in E. discriminate. Qed.
(** Tasks that do not fit together ([exSys]): interpolation and tasks disagree before the combination and agree after it. *)
Example C101_ex_combined : match startSystem exSetup VOutgroup 8 exSys with
  | Some X =>
    let disagree X := flat_map (fun t => filter (fun w => negb (Qeq_bool (systemValue exSetup X (coordinates exSetup (sLevel t) w)) (valueAt exSetup t w)))
                                                (boxPoints [0; 0] (globalSizes (sLevel t) [2; 2]))) (concat (sTasks X)) in
    length (disagree X) <> 0%nat /\
    match combineSystem exSetup VOutgroup 8 3 (fun _ => [[0; 1]%nat]) exStale exStale X with
    | Some X1 => disagree X1 = []
    | None => False
    end
  | None => False
  end.
Proof. vm_compute. split; [discriminate|reflexivity]. Qed.

Print Assumptions C101_function.
Print Assumptions C101_common_values.
Print Assumptions C101_after_combination.
Print Assumptions C101_scheme.
