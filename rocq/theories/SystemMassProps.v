(** The combination of the whole system keeps the integral, if the basis functions are chosen for it. *)
From Verif Require Import Base TensorModel TensorProofs TensorProps PartitionModel PartitionProofs DecompModel DecompProofs DofModel DofProofs Level1dModel
  Level1dProofs LevelSetsModel LevelSetsProofs LevelSetsProps SubspaceModel SubspaceProofs SubspaceProps CombiSchemeModel CombiSchemeProofs CombiSchemeProps Hier1dModel Hier1dProofs HierMassProofs Hier1dProps
  DistHierModel DistHierProofs DistExchangeProofs DistPoleProofs HierNDModel HierNDProofs HierLinProofs HierNDProps
  SparseGridModel SparseGridProofs CombineModel SparseTransferProofs SparseGridProps ReduceModel ReduceProofs VoteProofs SubspaceReduceProofs
  CombiStepModel CombiStepProofs CombiInitProofs CombiStepProps SystemModel SystemProofs SystemHatProofs SystemProps SystemMassProofs.
From Coq Require Import QArith Qcanon.
Open Scope Z_scope.
Ltac Zify.zify_post_hook ::= idtac.

(** The integral of what a task holds (see [gridMass]). *)
Definition massOf (y : Setup) (t : SysTask) : Qc := gridMass (yBnds y) (sLevel t) (valueAt y t).

(** Every dimension is hierarchized with a basis that keeps the integral. *)
Definition conservativeSetup (y : Setup) : Prop := forall k, (k < length (yRef y))%nat ->
  nth k (yDims y) false = true /\ conservative1 (nth k (yBases y) Hat) (nth k (yBnds y) 0).
(** No task is coarser than the minimum level of the hierarchization, and the coarsest subspaces take part in the combination. *)
Definition coarseCombined (y : Setup) (all : list SysTask) : Prop :=
  (forall t k, In t all -> (k < length (yRef y))%nat -> nth k (yLmin y) 0 <= nth k (sLevel t) 0) /\
  (forall l, length l = length (yRef y) -> (forall k, (k < length (yRef y))%nat -> 1 <= nth k l 0 <= Z.max 1 (nth k (yLmin y) 0)) -> In l (yLevels y)).

Lemma conservative_lmin : forall y, wfSetup y -> conservativeSetup y -> effectiveLmin y = yLmin y.
Proof.
  intros y (_ & LB & _) HC. unfold effectiveLmin. destruct (existsb (fun b => b =? 0) (yBnds y)) eqn:E; auto. exfalso. apply existsb_exists in E.
  destruct E as (b & Hb & E0). apply Z.eqb_eq in E0. destruct (In_nth _ _ 0 Hb) as (k & Hk & Ek). destruct (HC k ltac:(lia)) as (_ & [(B & _)|(B & _)]); rewrite Ek in B; lia.
Qed.

Lemma conservative_cfg : forall y all t, wfSetup y -> conservativeSetup y -> coarseCombined y all -> In t all -> wfTask y t -> conservativeCfg (taskCfg y (sLevel t)).
Proof.
  intros y all t HY HC (H1 & _) Ht (T1 & T2 & _) k Hk. cbn [taskCfg hLevels hDims hBases hBnds hLmin] in *. rewrite conservative_lmin by auto.
  assert (Hk' : (k < length (yRef y))%nat) by lia. destruct (HC k Hk') as (A & B). specialize (T2 k Hk'). repeat split; auto; lia.
Qed.

(** Where the points of the coarsest level lie in the grid of a task. *)
Lemma coarse_point : forall y all t u w, wfSetup y -> conservativeSetup y -> coarseCombined y all -> In t all -> In u all -> wfTask y t -> wfTask y u ->
  inBox (sizesOf (yBnds y) (yLmin y)) w ->
  let x := map2 Z.mul w (coarseSteps (taskCfg y (sLevel t))) in
  isPoint y t x /\ In (levelOf y (sLevel t) x) (yLevels y) /\ vleb (levelOf y (sLevel t) x) (sLevel u) = true /\
  sameIndex y (sLevel t) (sLevel u) x = map2 Z.mul w (coarseSteps (taskCfg y (sLevel u))).
Proof.
  intros y all t u w HY HC HM Ht Hu WT WU Hw x. pose proof HM as (M1 & M2). pose proof HY as (_ & LB & LM & _ & HK & _). pose proof WT as (T1 & T2 & _). pose proof WU as (U1 & U2 & _).
  apply inBox_nth in Hw. destruct Hw as [Lw Hw]. unfold sizesOf in Lw, Hw. rewrite map2_length in Lw, Hw by lia.
  assert (LS : forall u, length (sLevel u) = length (yRef y) -> length (coarseSteps (taskCfg y (sLevel u))) = length (yRef y)).
  { intros v Lv. unfold coarseSteps. cbn [taskCfg hLevels hLmin]. rewrite conservative_lmin by auto. rewrite map2_length; lia. }
  assert (NX : forall u k, length (sLevel u) = length (yRef y) -> (k < length (yRef y))%nat ->
     nth k (map2 Z.mul w (coarseSteps (taskCfg y (sLevel u)))) 0 = nth k w 0 * 2 ^ (nth k (sLevel u) 0 - nth k (yLmin y) 0)).
  { intros v k Lv Hk. rewrite (map2_nth _ _ _ _ _ _ k 0 0) by (rewrite ?LS; auto; lia). f_equal. unfold coarseSteps. cbn [taskCfg hLevels hLmin]. rewrite conservative_lmin by auto.
    rewrite (map2_nth _ _ _ _ _ _ k 0 0) by lia. reflexivity. }
  assert (K : forall k, (k < length (yRef y))%nat -> let L := nth k (sLevel t) 0 in let m := nth k (yLmin y) 0 in let b := nth k (yBnds y) 0 in
     1 <= b <= 2 /\ 0 <= m <= L /\ 1 <= L /\ 0 <= nth k w 0 < 2 ^ m + b - 1 /\ m <= nth k (sLevel u) 0 /\ 1 <= nth k (sLevel u) 0).
  { intros k Hk L m b. destruct (HC k Hk) as (_ & CB). destruct (HK k Hk) as (_ & _ & HM0 & _). specialize (Hw k ltac:(lia)). rewrite (map2_nth _ _ _ _ _ _ k 0 0) in Hw by lia.
    pose proof (M1 t k Ht Hk). pose proof (M1 u k Hu Hk). specialize (T2 k Hk). specialize (U2 k Hk). subst L m b. destruct CB as [(EB & _)|(EB & _)]; rewrite EB in *; repeat split; lia. }
  assert (B0 : forall k, (k < length (yRef y))%nat -> forall i, gridPos (nth k (yBnds y) 0) i = i).
  { intros k Hk i. destruct (K k Hk) as (B & _). unfold gridPos. destruct (Z.eqb_spec (nth k (yBnds y) 0) 0); lia. }
  assert (PX : isPoint y t x).
  { apply isPoint_nth; auto. unfold x. split; [rewrite map2_length by (rewrite LS; auto; lia); lia|]. intros k Hk. rewrite NX by auto. destruct (K k Hk) as (B & M & L & W & _).
    assert (PW : 2 ^ nth k (sLevel t) 0 = 2 ^ nth k (yLmin y) 0 * 2 ^ (nth k (sLevel t) 0 - nth k (yLmin y) 0)) by (rewrite <- Z.pow_add_r by lia; f_equal; lia).
    pose proof (pow2_pos (nth k (sLevel t) 0 - nth k (yLmin y) 0) ltac:(lia)) as P. rewrite PW. clear - B W P.
    assert (nth k (yBnds y) 0 = 1 \/ nth k (yBnds y) 0 = 2) as [E|E] by lia; rewrite E in *; nia. }
  assert (LV : forall k, (k < length (yRef y))%nat -> 1 <= nth k (levelOf y (sLevel t) x) 0 <= Z.max 1 (nth k (yLmin y) 0)).
  { intros k Hk. unfold levelOf. rewrite map_dims_nth by auto. rewrite getLevel_lev, B0 by auto. destruct (K k Hk) as (B & M & L & W & _).
    apply (isPoint_nth y t x HY WT) in PX. destruct PX as [_ PX]. specialize (PX k Hk).
    assert (lev (nth k (sLevel t) 0) (nth k x 0) <= nth k (yLmin y) 0); [|lia]. apply lev_divides; try lia. unfold x. rewrite NX by auto. now exists (nth k w 0). }
  split; auto. split; [apply M2; auto; apply levelOf_length|]. split.
  - apply vleb_spec; [rewrite levelOf_length; lia|]. apply (Forall2_nth_iff _ _ _ 0 0). split; [rewrite levelOf_length; lia|]. intros k Hk. rewrite levelOf_length in Hk.
    specialize (LV k Hk). destruct (K k Hk) as (_ & _ & _ & _ & A & A'). lia.
  - apply (nth_ext _ _ 0 0); [unfold sameIndex; rewrite map_dims_length, map2_length by (rewrite LS; auto; lia); lia|]. intros k Hk. unfold sameIndex in *. rewrite map_dims_length in Hk.
    rewrite map_dims_nth, NX by auto. unfold sameIndex1. rewrite B0 by auto. unfold x. rewrite NX by auto. destruct (K k Hk) as (B & M & L & W & A & A').
    destruct (Z.eqb_spec (nth k (yBnds y) 0) 0); [lia|].
    set (Lt := nth k (sLevel t) 0) in *. set (Lu := nth k (sLevel u) 0) in *. set (m := nth k (yLmin y) 0) in *.
    assert (PW : 2 ^ Lt = 2 ^ m * 2 ^ (Lt - m)) by (rewrite <- Z.pow_add_r by lia; f_equal; lia).
    assert (PU : 2 ^ Lu = 2 ^ m * 2 ^ (Lu - m)) by (rewrite <- Z.pow_add_r by lia; f_equal; lia).
    replace (nth k w 0 * 2 ^ (Lt - m) * 2 ^ Lu) with (nth k w 0 * 2 ^ (Lu - m) * 2 ^ Lt) by (rewrite PW, PU; ring). rewrite Z.div_mul by (pose proof (pow2_pos Lt); lia). lia.
Qed.

Lemma gridMass_linear : forall {A} bs ls (c : A -> Qc) (G : A -> list Z -> Qc) all,
  gridMass bs ls (fun w => qsum (map (fun u => c u * G u w)%Qc all)) = qsum (map (fun u => c u * gridMass bs ls (G u))%Qc all).
Proof.
  intros A bs ls c G all. unfold gridMass. induction all as [|u all IH].
  - change (qsum (map (fun u => c u * ?g u)%Qc [])) with 0%Qc. induction (gridPoints (sizesOf bs ls)) as [|w l IH]; auto.
    cbn [map]. change (qsum (?a :: ?b)) with (a + qsum b)%Qc. cbn [map] in IH. rewrite IH. change (qsum []) with 0%Qc. ring.
  - cbn [map]. change (qsum ((c u * ?a)%Qc :: ?b)) with (c u * a + qsum b)%Qc. rewrite <- IH. clear. induction (gridPoints (sizesOf bs ls)) as [|w l IH]; [cbn; ring|]. cbn [map]. change (qsum (?a :: ?b)) with (a + qsum b)%Qc. rewrite IH.
    change (qsum (?a :: ?b)) with (a + qsum b)%Qc. ring.
Qed.

Lemma mass_combined : forall y all t t', wfSetup y -> conservativeSetup y -> coarseCombined y all -> Forall (wfTask y) all -> In t all -> combinedSys y all t t' ->
  massOf y t' = qsum (map (fun u => sCoeff u * massOf y u)%Qc all).
Proof.
  intros y all t t' HY HC HM WT Ht (EL & EC & EV). rewrite Forall_forall in WT. pose proof (WT t Ht) as HT.
  pose proof (taskCfg_wf y t HY HT) as WC. pose proof (conservative_cfg y all t HY HC HM Ht HT) as CC.
  assert (ED : forall u, wfTask y u -> dims y = seq 0 (length (hLevels (taskCfg y (sLevel u))))) by (intros u (U & _); unfold dims; cbn [taskCfg hLevels]; now rewrite U).
  unfold massOf at 1. rewrite EL.
  transitivity (gridMass (hBnds (taskCfg y (sLevel t))) (hLevels (taskCfg y (sLevel t))) (opAll (taskCfg y (sLevel t)) true (seq 0 (length (hLevels (taskCfg y (sLevel t)))))
     (combinedAt y all (fun u => surplus y (sLevel u) (valueAt y u)) t))).
  { rewrite <- (ED t HT). apply (gridMass_ext (yBnds y) (sLevel t)). intros w Hw. apply EV. pose proof (sizesOf_cfg _ WC) as SZ. cbn [taskCfg hBnds hLevels] in SZ. rewrite SZ in Hw. exact Hw. }
  rewrite (gridMass_nodal _ _ WC CC). cbn [taskCfg hBnds hLmin]. rewrite conservative_lmin by auto.
  transitivity (gridMass (yBnds y) (yLmin y) (fun w => qsum (map (fun u => sCoeff u * surplus y (sLevel u) (valueAt y u) (map2 Z.mul w (coarseSteps (taskCfg y (sLevel u)))))%Qc all))).
  - apply gridMass_ext. intros w Hw. unfold combinedAt. cbv zeta.
    destruct (coarse_point y all t t w HY HC HM Ht Ht HT HT Hw) as (_ & IN & _). destruct (in_dec _ _ _) as [_|N]; [|now destruct N]. f_equal. apply map_ext_in. intros u Hu.
    destruct (coarse_point y all t u w HY HC HM Ht Hu HT (WT u Hu) Hw) as (_ & _ & V & E). rewrite V, E. reflexivity.
  - rewrite (gridMass_linear (yBnds y) (yLmin y) sCoeff (fun u w => surplus y (sLevel u) (valueAt y u) (map2 Z.mul w (coarseSteps (taskCfg y (sLevel u)))))).
    f_equal. apply map_ext_in. intros u Hu. f_equal. pose proof (WT u Hu) as HU. unfold massOf.
    pose proof (gridMass_surplus (taskCfg y (sLevel u)) (valueAt y u) (taskCfg_wf y u HY HU) (conservative_cfg y all u HY HC HM Hu HU)) as X.
    rewrite <- (ED u HU) in X. cbn [taskCfg hBnds hLmin hLevels] in X. rewrite conservative_lmin in X by auto. symmetry. exact X.
Qed.

Lemma coarse_same : forall y a b, sameTasks a b -> coarseCombined y (concat a) -> coarseCombined y (concat b).
Proof.
  intros y a b F (H1 & H2). split; auto. intros t k Ht Hk. apply Forall2_concat' in F. destruct (In_nth_error _ _ Ht) as [i Hi].
  pose proof (Forall2_to_nth _ _ _ F i) as X. rewrite Hi in X. destruct (nth_error (concat a) i) as [u|] eqn:Eu; [|contradiction]. destruct X as [d ->]. cbn [withData sLevel]. apply H1; auto. eapply nth_error_In; eauto.
Qed.

(** C91: after a combination every task has the same integral, the combination of the integrals before. *)
Theorem C91_mass_combined : forall y v esz tasks S chunk order staleH staleD, wfSystem y v tasks -> sysReachable y v esz tasks S ->
  0 < chunk < 2 ^ 31 -> allOrders y S order -> conservativeSetup y -> coarseCombined y (concat tasks) ->
  exists S', combineSystem y v esz chunk order staleH staleD S = Some S' /\
    forall t', In t' (concat (sTasks S')) -> massOf y t' = qsum (map (fun u => sCoeff u * massOf y u)%Qc (concat (sTasks S))).
Proof.
  intros y v esz tasks S chunk order sH sD W R HC HO CS CM. destruct (combine_sys y v esz tasks S chunk order sH sD W R HC HO) as (S' & E & _ & _ & F).
  exists S'. split; auto. pose proof W as (HY & HT & _). pose proof (sysReachable_inv _ _ _ _ _ W R) as (I & _).
  assert (WT : Forall (wfTask y) (concat (sTasks S))) by (eapply sameTasks_wf; eauto). pose proof (coarse_same y _ _ I CM) as CM'.
  intros t' Ht'. destruct (In_nth_error _ _ Ht') as [i Hi]. pose proof (Forall2_to_nth _ _ _ F i) as X. rewrite Hi in X. destruct (nth_error (concat (sTasks S)) i) as [t|] eqn:Et; [|contradiction].
  apply (mass_combined y (concat (sTasks S)) t); auto. eapply nth_error_In; eauto.
Qed.

Lemma unity_one : forall y all, wfSetup y -> Forall (wfTask y) all -> unitySys y all -> all <> [] -> qsum (map sCoeff all) = 1%Qc.
Proof.
  intros y all HY WT HU N. destruct all as [|t r] eqn:EA; [congruence|]. rewrite <- EA in *. assert (Ht : In t all) by (rewrite EA; now left). clear N EA r.
  pose proof HY as (_ & _ & _ & _ & _ & (rest & EL) & _). rewrite Forall_forall in WT.
  assert (LE : forall u, In u all -> Forall2 Z.le (repeat 1 (length (yRef y))) (sLevel u)).
  { intros u Hu. destruct (WT u Hu) as (U1 & U2 & _). apply (Forall2_nth_iff _ _ _ 0 0). rewrite repeat_length. split; auto. intros k Hk. rewrite nth_repeat_lt by auto. specialize (U2 k Hk). lia. }
  rewrite <- (HU (repeat 1 (length (yRef y))) t); auto.
  - f_equal. apply map_ext_in. intros u Hu. rewrite (proj2 (vleb_spec (repeat 1 (length (yRef y))) (sLevel u) ltac:(rewrite repeat_length; destruct (WT u Hu); lia)) (LE u Hu)). reflexivity.
  - rewrite EL. now left.
Qed.

Lemma qsum_const : forall {A} (c g : A -> Qc) M l, (forall x, In x l -> g x = M) -> qsum (map (fun x => c x * g x)%Qc l) = (qsum (map c l) * M)%Qc.
Proof.
  intros A c g M l H. induction l as [|x l IH]; [cbn; ring|]. cbn [map]. change (qsum (?a :: ?b)) with (a + qsum b)%Qc. rewrite IH by (intros; apply H; now right). rewrite (H x) by (now left). ring.
Qed.

(** The combined integral is the same before and after, however often one combines. *)
Theorem C91_mass_conserved : forall y v esz tasks S chunk order staleH staleD, wfSystem y v tasks -> sysReachable y v esz tasks S ->
  0 < chunk < 2 ^ 31 -> allOrders y S order -> conservativeSetup y -> coarseCombined y (concat tasks) -> unitySys y (concat tasks) ->
  exists S', combineSystem y v esz chunk order staleH staleD S = Some S' /\
    qsum (map (fun u => sCoeff u * massOf y u)%Qc (concat (sTasks S'))) = qsum (map (fun u => sCoeff u * massOf y u)%Qc (concat (sTasks S))).
Proof.
  intros y v esz tasks S chunk order sH sD W R HC HO CS CM HU. destruct (C91_mass_combined y v esz tasks S chunk order sH sD W R HC HO CS CM) as (S' & E & HM).
  exists S'. split; auto. destruct (combine_sys y v esz tasks S chunk order sH sD W R HC HO) as (S1 & E1 & R' & ST & F). rewrite E in E1. injection E1 as <-.
  rewrite (qsum_const sCoeff (massOf y) _ _ HM). pose proof W as (HY & HT & _).
  pose proof (sysReachable_inv _ _ _ _ _ W R') as (I' & _). pose proof (sysReachable_inv _ _ _ _ _ W R) as (I & _).
  assert (EC : forall a b, sameTasks a b -> map sCoeff (concat b) = map sCoeff (concat a)).
  { intros a b X. apply Forall2_concat' in X. revert X. generalize (concat a) (concat b). induction 1 as [|t t' l l' [d ->] X IH]; auto. cbn [map]. now rewrite IH. }
  rewrite (EC _ _ I'). destruct (concat tasks) as [|t0 r0] eqn:ET.
  - assert (concat (sTasks S) = []) as ->; [|cbn; ring]. pose proof (EC _ _ I) as X. rewrite ET in X. destruct (concat (sTasks S)); [auto|discriminate].
  - rewrite <- ET in *. rewrite (unity_one y (concat tasks)); auto; [ring|rewrite ET; discriminate].
Qed.

(** The schemes of the library. *)
Theorem C91_scheme : forall y v esz tasks S chunk order staleH staleD lmin lmax s, wfSystem y v tasks -> sysReachable y v esz tasks S ->
  0 < chunk < 2 ^ 31 -> allOrders y S order -> conservativeSetup y -> coarseCombined y (concat tasks) ->
  Forall2 Z.le lmin lmax -> lmin <> [] -> Forall (fun x => 1 <= x) lmin -> schemeOf lmin lmax s -> sysTasksOf s (concat tasks) ->
  exists S', combineSystem y v esz chunk order staleH staleD S = Some S' /\
    qsum (map (fun u => sCoeff u * massOf y u)%Qc (concat (sTasks S'))) = qsum (map (fun u => sCoeff u * massOf y u)%Qc (concat (sTasks S))).
Proof.
  intros y v esz tasks S chunk order sH sD lmin lmax s W R HC HO CS CM F N P HS TO. pose proof W as (HY & HT & _).
  apply (C91_mass_conserved y v esz tasks); auto. apply (scheme_unitySys y lmin lmax s); auto.
Qed.

(** ** Example *)
Definition exMassTasks (y : Setup) : list (list SysTask) :=
  [[exTask y [2; 1] (toQc 1) (exNum 1); exTask y [1; 1] (toQc (-1)) (exNum 2)]; [exTask y [1; 2] (toQc 1) (exNum 5)]].
Definition exMasses (y : Setup) : option (list Q * list Q) :=
  match startSystem y VOutgroup 8 (exMassTasks y) with
  | Some X => match combineSystem y VOutgroup 8 3 (fun _ => [[0; 1]%nat]) exStale exStale X with
              | Some X' => Some (map (fun t => this (massOf y t)) (concat (sTasks X)), map (fun t => this (massOf y t)) (concat (sTasks X')))
              | None => None
              end
  | None => None
  end.
Lemma exMass_wf : wfSystem exSetupFW VOutgroup (exMassTasks exSetupFW).
Proof.
  destruct (exSys_wf VOutgroup (exNum 1) (exNum 2) (exNum 5) (toQc 1) (toQc (-1)) (toQc 1)) as (_ & B & C).
  split; [exact (proj2 C75_ex_hyps)|]. split; [exact B|exact C].
Qed.
Example C91_ex_hyps : wfSystem exSetupFW VOutgroup (exMassTasks exSetupFW) /\ conservativeSetup exSetupFW /\ coarseCombined exSetupFW (concat (exMassTasks exSetupFW)) /\
  schemeOf [1; 1] [2; 2] (classicalScheme [1; 1] [2; 2]) /\ sysTasksOf (classicalScheme [1; 1] [2; 2]) (concat (exMassTasks exSetupFW)).
Proof.
  split; [apply exMass_wf|]. split; [|split; [|split]].
  - intros [|[|k]] Hk; cbn in Hk; try lia; (split; [reflexivity|left; split; [reflexivity|]]); [now left|now right].
  - split.
    + intros t [|[|k]] Ht Hk; cbn in Hk; try lia; cbn in Ht; destruct Ht as [<-|[<-|[<-|[]]]]; cbn; lia.
    + intros l Ll H. cbn in Ll, H. destruct l as [|a [|b [|c l]]]; try discriminate. pose proof (H 0%nat ltac:(lia)). pose proof (H 1%nat ltac:(lia)). cbn in *. left. f_equal; [lia|f_equal; lia].
  - apply C74_ex_hyps. exact VOutgroup.
  - exact (proj1 (proj2 (proj2 (proj2 (C74_ex_hyps VOutgroup))))).
Qed.
(** All tasks get the integral 7/2 - (-1/2) - 9/2; with hat functions they do not even agree. *)
Example C91_ex : exMasses exSetupFW = Some ([7 # 2; -1 # 2; -9 # 2], [-1 # 2; -1 # 2; -1 # 2])%Q /\
  exMasses exSetup = Some ([7 # 2; -1 # 2; -9 # 2], [-1 # 2; 1; 1])%Q.
Proof. split; vm_compute; reflexivity. Qed.

Print Assumptions C91_mass_combined.
Print Assumptions C91_mass_conserved.
Print Assumptions C91_scheme.
