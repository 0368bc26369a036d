(** Proofs about SystemModel.v: the combination of the whole system, seen as functions on the grid points. *)
From Verif Require Import Base TensorModel TensorProofs PartitionModel PartitionProofs DecompModel DecompProofs DofModel DofProofs Level1dModel
  Level1dProofs LevelSetsModel LevelSetsProofs SubspaceModel SubspaceProofs SubspaceProps CombiSchemeModel CombiSchemeProofs Hier1dModel Hier1dProofs HierMassProofs Hier1dProps
  DistHierModel DistHierProofs DistExchangeProofs DistPoleProofs HierNDModel HierNDProofs HierLinProofs HierNDProps
  SparseGridModel SparseGridProofs CombineModel SparseTransferProofs SparseGridProps ReduceModel ReduceProofs VoteProofs SubspaceReduceProofs
  CombiStepModel CombiStepProofs CombiInitProofs CombiStepProps SystemModel.
From Coq Require Import QArith Qcanon.
Open Scope Z_scope.
Ltac Zify.zify_post_hook ::= idtac.

(** The dimensions. *)
Definition dims (y : Setup) : list nat := seq 0 (length (yRef y)).

(** The value of a task at the point with global index [w], on whatever process it lies. *)
Definition valueAt (y : Setup) (t : SysTask) : list Z -> Qc := gridFunction (taskCfg y (sLevel t)) (sData t).
Definition isPoint (y : Setup) (t : SysTask) (w : list Z) : Prop := inBox (globalSizes (sLevel t) (yBnds y)) w.

(** The index in a grid of level [L'] of the point that has index [i] in a grid of level [L] (one dimension). *)
Definition sameIndex1 (b L L' i : Z) : Z := gridPos b i * 2 ^ L' / 2 ^ L - (if b =? 0 then 1 else 0).
Definition sameIndex (y : Setup) (L L' w : list Z) : list Z :=
  map (fun i => sameIndex1 (nth i (yBnds y) 0) (nth i L 0) (nth i L' 0) (nth i w 0)) (dims y).

(** The level of the hierarchical subspace of a point; boundary points count as level 1. *)
Definition levelOf (y : Setup) (L w : list Z) : list Z :=
  map (fun i => Z.max 1 (getLevel (nth i (yBnds y) 0) (nth i L 0) (nth i w 0))) (dims y).

(** Hierarchical coefficients of a grid function of level [L] (all dimensions, pole by pole), and back. *)
Definition surplus (y : Setup) (L : list Z) : (list Z -> Qc) -> list Z -> Qc := opAll (taskCfg y L) false (dims y).
Definition nodal (y : Setup) (L : list Z) : (list Z -> Qc) -> list Z -> Qc := opAll (taskCfg y L) true (dims y).

(** The coefficient the combination gives to task [t] at point [w], if the tasks are [all] and have coefficients [H]. *)
Definition combinedAt (y : Setup) (all : list SysTask) (H : SysTask -> list Z -> Qc) (t : SysTask) (w : list Z) : Qc :=
  let l := levelOf y (sLevel t) w in
  if in_dec (list_eq_dec Z.eq_dec) l (yLevels y)
  then qsum (map (fun u => if vleb l (sLevel u) then sCoeff u * H u (sameIndex y (sLevel t) (sLevel u) w) else 0)%Qc all)
  else H t w.

(** What the setup and a task have to fulfil: [r] are the ranks. *)
Definition wfSetup (y : Setup) : Prop :=
  let d := length (yRef y) in
  (0 < d)%nat /\ length (yBnds y) = d /\ length (yLmin y) = d /\
  validDec (yProcs y) (globalSizes (yRef y) (yBnds y)) (yDecs y) /\
  (forall k, (k < d)%nat -> 1 <= nth k (yRef y) 0 <= 28 /\ 0 <= nth k (yBnds y) 0 <= 2 /\ 0 <= nth k (yLmin y) 0 /\
     (nth k (yDims y) false = true -> nth k (yBnds y) 0 > 0 \/ nth k (yBases y) Hat = Hat)) /\
  (exists rest, yLevels y = repeat 1 d :: rest) /\ sortedLevels d (yLevels y) /\ Forall (Forall (Z.le 1)) (yLevels y).

Definition wfTask (y : Setup) (t : SysTask) : Prop :=
  length (sLevel t) = length (yRef y) /\
  (forall k, (k < length (yRef y))%nat -> 1 <= nth k (sLevel t) 0 <= nth k (yRef y) 0) /\
  validDec (yProcs y) (globalSizes (sLevel t) (yBnds y)) (downsampleDecomposition (yDecs y) (yRef y) (sLevel t) (yBnds y)) /\
  forall r, 0 <= r < zprod (yProcs y) ->
    Forall (StronglySorted lexlt) (sThreads t r) /\ Permutation (concat (sThreads t r)) (getDownSet (sLevel t)) /\
    zprod (hLocalSizes (taskCfg y (sLevel t)) r) < 2 ^ 32.

Lemma effectiveLmin_spec : forall y k, wfSetup y -> (k < length (yRef y))%nat ->
  length (effectiveLmin y) = length (yRef y) /\ 0 <= nth k (effectiveLmin y) 0 /\ (nth k (yBnds y) 0 = 0 -> nth k (effectiveLmin y) 0 = 0).
Proof.
  intros y k (_ & LB & LM & _ & HK & _) Hk. unfold effectiveLmin. destruct (HK k Hk) as (_ & _ & HM & _).
  destruct (existsb (fun b => b =? 0) (yBnds y)) eqn:E.
  - rewrite repeat_length, nth_repeat. repeat split; auto; lia.
  - repeat split; auto. intros Z0. exfalso. assert (X : existsb (fun b => b =? 0) (yBnds y) = true).
    { apply existsb_exists. exists (nth k (yBnds y) 0). split; [apply nth_In; lia|]. now apply Z.eqb_eq. }
    congruence.
Qed.

Lemma taskCfg_wf : forall y t, wfSetup y -> wfTask y t -> wfCfg (taskCfg y (sLevel t)).
Proof.
  intros y t HY (L1 & L2 & L3 & L4). pose proof HY as (D & LB & LM & V & HK & _). unfold wfCfg. cbn [taskCfg hLevels hBnds hLmin hProcs hDecs hSizes].
  rewrite L1. split; auto. split; auto. split; [apply (effectiveLmin_spec y 0 HY D)|]. split; [exact L3|].
  intros k Hk. destruct (HK k Hk) as (A & B & C & _). destruct (effectiveLmin_spec y k HY Hk) as (_ & E1 & E2). specialize (L2 k Hk). repeat split; auto; lia.
Qed.

Lemma taskCfg_supported : forall y t, wfSetup y -> wfTask y t -> supported (taskCfg y (sLevel t)) (dims y).
Proof.
  intros y t (D & LB & LM & V & HK & _) _ k Hk Ha. cbn [taskCfg hBnds hBases]. unfold dims in Hk. apply in_seq in Hk.
  unfold active in Ha. cbn [taskCfg hDims] in Ha. apply andb_true_iff in Ha. destruct Ha as [Ha _]. apply (HK k); auto. lia.
Qed.

Lemma dims_In : forall y k, In k (dims y) <-> (k < length (yRef y))%nat.
Proof. intros y k. unfold dims. rewrite in_seq. lia. Qed.

Lemma map_dims_nth : forall y (F : nat -> Z) k, (k < length (yRef y))%nat -> nth k (map F (dims y)) 0 = F k.
Proof.
  intros y F k Hk. unfold dims. rewrite (nth_indep _ 0 (F 0%nat)) by now rewrite map_length, seq_length.
  rewrite map_nth, seq_nth by auto. reflexivity.
Qed.
Lemma map_dims_length : forall y (F : nat -> Z), length (map F (dims y)) = length (yRef y).
Proof. intros. unfold dims. now rewrite map_length, seq_length. Qed.

(** ** One rank *)

Section Local.
Variables (y : Setup).
Hypothesis HY : wfSetup y.
Variable r : Z.
Hypothesis Hr : 0 <= r < zprod (yProcs y).

Lemma dec_conditions : forall La Lb, length La = length (yRef y) -> length Lb = length (yRef y) ->
  (forall k, (k < length (yRef y))%nat -> nth k La 0 <= nth k (yRef y) 0 /\ nth k Lb 0 <= nth k (yRef y) 0) ->
  shapeDec (yProcs y) (globalSizes (yRef y) (yBnds y)) (yDecs y) /\ length (yDecs y) = length (yRef y) /\
  (forall i, (i < length (yDecs y))%nat ->
     nth i La 0 <= nth i (yRef y) 0 /\ nth i Lb 0 <= nth i (yRef y) 0 /\ 0 <= nth i (yBnds y) 0 <= 2 /\
     (forall j k, (j <= k < length (nth i (yDecs y) []))%nat -> nth j (nth i (yDecs y) []) 0 <= nth k (nth i (yDecs y) []) 0) /\
     forall j, (j < length (nth i (yDecs y) []))%nat ->
       0 <= nth j (nth i (yDecs y) []) 0 <= 2 ^ nth i (yRef y) 0 + nth i (yBnds y) 0 - 1).
Proof.
  intros La Lb HA HB HL. pose proof HY as (D & LB & LM & V & HK & _). pose proof V as (V1 & V2 & V3).
  assert (LD : length (yDecs y) = length (yRef y)) by (rewrite <- V2; unfold globalSizes; rewrite map2_length; lia).
  split; [now apply validDec_shape|]. split; auto. intros i Hi. rewrite LD in Hi. destruct (HL i Hi). destruct (HK i Hi) as (_ & B & _). split; auto. split; auto. split; auto.
  destruct (V3 i ltac:(lia)) as (_ & W). pose proof (validDec1_nonempty _ _ W) as [NE _]. destruct W as (W0 & W1 & W2).
  assert (N0 : nth 0 (nth i (yDecs y) []) 0 = 0) by (rewrite (nth_indep _ 0 (-1)) by lia; exact W0).
  split.
  - intros j k Hjk. destruct (Nat.eq_dec j k) as [->|]; [lia|]. specialize (W1 j k ltac:(lia)). lia.
  - intros j Hj. specialize (W2 j Hj). assert (0 <= nth j (nth i (yDecs y) []) 0) by (destruct j as [|j]; [lia|]; specialize (W1 0%nat (S j) ltac:(lia)); lia).
    unfold globalSizes in W2. rewrite (map2_nth _ _ _ _ _ _ i 0 0) in W2 by lia. unfold numDofNodal1 in W2.
    destruct (Z.gtb_spec (nth i (yRef y) 0) 0); [lia|]. destruct (HK i Hi). lia.
Qed.

Lemma task_sizes : forall t k, wfTask y t -> (k < length (yRef y))%nat ->
  nth k (globalSizes (sLevel t) (yBnds y)) 0 = 2 ^ nth k (sLevel t) 0 + nth k (yBnds y) 0 - 1.
Proof.
  intros t k (L1 & L2 & _) Hk. destruct HY as (_ & LB & _). unfold globalSizes. rewrite (map2_nth _ _ _ _ _ _ k 0 0) by lia.
  unfold numDofNodal1. specialize (L2 k Hk). destruct (Z.gtb_spec (nth k (sLevel t) 0) 0); [auto|lia].
Qed.

Lemma local_wfGrid : forall t, wfTask y t -> wfGrid (cGrid (localTask y r t)).
Proof.
  intros t HT. pose proof HT as (L1 & L2 & V & _). pose proof HY as (D & LB & LM & _ & HK & _). pose proof V as (V1 & V2 & V3).
  assert (LG : length (globalSizes (sLevel t) (yBnds y)) = length (yRef y)) by (unfold globalSizes; rewrite map2_length; lia).
  cbn [localTask cGrid]. apply gridOfRank_wf; auto; [lia|]. intros i Hi. destruct (HK i ltac:(lia)) as (_ & B & _). specialize (L2 i ltac:(lia)).
  split; [lia|]. split; auto. intros c Hc. destruct (V3 i ltac:(lia)) as [E V4]. rewrite task_sizes in V4 by (auto; lia).
  pose proof (validDec1_range _ _ _ V4 Hc). lia.
Qed.

Lemma local_good : forall t, wfTask y t -> goodComp (length (yRef y)) (localTask y r t).
Proof.
  intros t HT. split; [now apply local_wfGrid|]. destruct HT as (L1 & L2 & V & T). destruct (T r Hr) as (T1 & T2 & _). cbn [localTask cGrid gridOfRank gLevel cThreads]. auto.
Qed.

Lemma contains_iff : forall t l, containsL (localTask y r t) l <-> Forall2 (fun x y => 1 <= x <= y) l (sLevel t).
Proof. intros. unfold containsL, localTask. cbn [cGrid gridOfRank gLevel]. reflexivity. Qed.

Lemma same_refPos : forall t u l, wfTask y t -> wfTask y u -> containsL (localTask y r t) l -> containsL (localTask y r u) l ->
  let gt := cGrid (localTask y r t) in let gu := cGrid (localTask y r u) in
  map (fun k => refPos (yRef y) gt (getVectorIndex (gSizes gt) k)) (pointsOf (localTask y r t) l) =
  map (fun k => refPos (yRef y) gu (getVectorIndex (gSizes gu) k)) (pointsOf (localTask y r u) l).
Proof.
  intros t u l HT HU Ct Cu gt gu. pose proof HT as (T1 & T2 & _). pose proof HU as (U1 & U2 & _). pose proof HY as (_ & LB & _).
  destruct (dec_conditions (sLevel t) (sLevel u) T1 U1) as (S & LD & H).
  { intros k Hk. specialize (T2 k Hk). specialize (U2 k Hk). lia. }
  apply (C56_same_point_order (yProcs y) (yRef y) (sLevel t) (sLevel u) (yBnds y) (yDecs y) r l); auto; lia.
Qed.

(** The local part seen from hierarchization is the one seen from the combination. *)
Lemma local_sizes : forall t, gSizes (cGrid (localTask y r t)) = hLocalSizes (taskCfg y (sLevel t)) r.
Proof. reflexivity. Qed.
Lemma local_lower : forall t, gLower (cGrid (localTask y r t)) = hLower (taskCfg y (sLevel t)) r.
Proof. reflexivity. Qed.

Lemma local_point : forall t k, wfTask y t -> 0 <= k < zprod (hLocalSizes (taskCfg y (sLevel t)) r) ->
  inBox (hLocalSizes (taskCfg y (sLevel t)) r) (getVectorIndex (hLocalSizes (taskCfg y (sLevel t)) r) k) /\
  sequentialIndex (hLocalSizes (taskCfg y (sLevel t)) r) (getVectorIndex (hLocalSizes (taskCfg y (sLevel t)) r) k) = k.
Proof.
  intros t k HT Hk. pose proof (localSizes_pos _ (taskCfg_wf y t HY HT) r Hr) as P. rewrite getVectorIndex_unlin by auto.
  split; [now apply unlin_inBox|]. rewrite sequentialIndex_lin by now apply unlin_inBox. now apply lin_unlin.
Qed.

Lemma points_range : forall t l k, wfTask y t -> containsL (localTask y r t) l -> In k (pointsOf (localTask y r t) l) ->
  0 <= k < zprod (hLocalSizes (taskCfg y (sLevel t)) r).
Proof.
  intros t l k HT C Hk. apply (C06_listed_under_its_level _ l k (local_wfGrid t HT) C) in Hk. apply Hk.
Qed.

(** The global index of the [j]-th point of subspace [l] on this rank. *)
Definition pointIndex (t : SysTask) (l : list Z) (j : nat) : list Z :=
  vadd (hLower (taskCfg y (sLevel t)) r) (getVectorIndex (hLocalSizes (taskCfg y (sLevel t)) r) (nth j (pointsOf (localTask y r t) l) 0)).

Lemma pointIndex_nth : forall t l j i, wfTask y t -> containsL (localTask y r t) l -> (j < length (pointsOf (localTask y r t) l))%nat -> (i < length (yRef y))%nat ->
  nth i (pointIndex t l j) 0 = nth i (gLower (cGrid (localTask y r t))) 0 + nth i (getVectorIndex (gSizes (cGrid (localTask y r t))) (nth j (pointsOf (localTask y r t) l) 0)) 0 /\
  length (pointIndex t l j) = length (yRef y).
Proof.
  intros t l j i HT C Hj Hi. pose proof (taskCfg_wf y t HY HT) as HW. destruct (lower_len _ HW r Hr) as (A & B & E). cbn [taskCfg hLevels] in A, B, E.
  destruct (local_point t (nth j (pointsOf (localTask y r t) l) 0) HT) as [I _]; [apply (points_range t l); auto; now apply nth_In|].
  apply inBox_length in I. pose proof HT as (L1 & _). unfold pointIndex. rewrite vadd_nth, vadd_length by lia. rewrite local_sizes, local_lower. split; auto. lia.
Qed.

Lemma pointIndex_same : forall t u l j, wfTask y t -> wfTask y u -> containsL (localTask y r t) l -> containsL (localTask y r u) l ->
  (j < length (pointsOf (localTask y r t) l))%nat ->
  (j < length (pointsOf (localTask y r u) l))%nat /\ pointIndex u l j = sameIndex y (sLevel t) (sLevel u) (pointIndex t l j).
Proof.
  intros t u l j HT HU Ct Cu Hj. pose proof (same_refPos t u l HT HU Ct Cu) as E. cbv zeta in E.
  assert (LE : length (pointsOf (localTask y r t) l) = length (pointsOf (localTask y r u) l)).
  { apply (f_equal (@length _)) in E. now rewrite !map_length in E. }
  assert (Hj' : (j < length (pointsOf (localTask y r u) l))%nat) by lia. split; auto.
  apply (f_equal (fun l => nth j l [])) in E.
  rewrite (nth_indep _ [] (refPos (yRef y) (cGrid (localTask y r t)) (getVectorIndex (gSizes (cGrid (localTask y r t))) 0))) in E by now rewrite map_length.
  rewrite (nth_indep (map _ (pointsOf (localTask y r u) l)) [] (refPos (yRef y) (cGrid (localTask y r u)) (getVectorIndex (gSizes (cGrid (localTask y r u))) 0))) in E by now rewrite map_length.
  rewrite (map_nth (fun k => refPos (yRef y) (cGrid (localTask y r t)) (getVectorIndex (gSizes (cGrid (localTask y r t))) k))) in E.
  rewrite (map_nth (fun k => refPos (yRef y) (cGrid (localTask y r u)) (getVectorIndex (gSizes (cGrid (localTask y r u))) k))) in E.
  pose proof HT as (T1 & T2 & _). pose proof HU as (U1 & U2 & _). pose proof HY as (D & LB & _).
  apply nth_ext_Z.
  - destruct (pointIndex_nth u l j 0 HU Cu Hj' D) as [_ ->]. unfold sameIndex. now rewrite map_dims_length.
  - destruct (pointIndex_nth u l j 0 HU Cu Hj' D) as [_ ->]. intros i Hi. unfold sameIndex. rewrite map_dims_nth by auto.
    destruct (pointIndex_nth u l j i HU Cu Hj' Hi) as [-> _]. destruct (pointIndex_nth t l j i HT Ct Hj Hi) as [-> _].
    apply (f_equal (fun l => nth i l 0)) in E. unfold refPos in E.
    assert (ND : forall (F : nat -> Z) n, (i < n)%nat -> nth i (map F (seq 0 n)) 0 = F i).
    { intros F n Hn. rewrite (nth_indep _ 0 (F 0%nat)) by now rewrite map_length, seq_length. rewrite map_nth, seq_nth by auto. reflexivity. }
    change (gLevel (cGrid (localTask y r t))) with (sLevel t) in E. change (gLevel (cGrid (localTask y r u))) with (sLevel u) in E.
    rewrite !ND in E by lia. change (gBnd (cGrid (localTask y r t))) with (yBnds y) in E. change (gBnd (cGrid (localTask y r u))) with (yBnds y) in E.
    unfold refPos1 in E. specialize (T2 i Hi). specialize (U2 i Hi).
    set (wt := nth i (gLower (cGrid (localTask y r t))) 0 + _) in *. set (wu := nth i (gLower (cGrid (localTask y r u))) 0 + _) in *.
    set (b := nth i (yBnds y) 0) in *. set (Lt := nth i (sLevel t) 0) in *. set (Lu := nth i (sLevel u) 0) in *. set (R := nth i (yRef y) 0) in *.
    unfold sameIndex1.
    assert (Q : gridPos b wt * 2 ^ Lu / 2 ^ Lt = gridPos b wu).
    { assert (PT : 2 ^ R = 2 ^ (R - Lt) * 2 ^ Lt) by (rewrite <- Z.pow_add_r by lia; f_equal; lia).
      assert (PU : 2 ^ R = 2 ^ (R - Lu) * 2 ^ Lu) by (rewrite <- Z.pow_add_r by lia; f_equal; lia).
      pose proof (pow2_pos (R - Lt) ltac:(lia)). pose proof (pow2_pos (R - Lu) ltac:(lia)). pose proof (pow2_pos Lt ltac:(lia)). pose proof (pow2_pos Lu ltac:(lia)).
      assert (X : gridPos b wt * 2 ^ Lu = gridPos b wu * 2 ^ Lt).
      { apply (Z.mul_reg_r _ _ (2 ^ (R - Lt) * 2 ^ (R - Lu))); [nia|].
        transitivity (gridPos b wt * 2 ^ (R - Lt) * 2 ^ R); [rewrite PU; ring|]. rewrite E, PT. ring. }
      rewrite X. apply Z.div_mul. lia. }
    rewrite Q. unfold gridPos. destruct (b =? 0); lia.
Qed.

Lemma pointIndex_level : forall t l j, wfTask y t -> containsL (localTask y r t) l -> (j < length (pointsOf (localTask y r t) l))%nat ->
  levelOf y (sLevel t) (pointIndex t l j) = l.
Proof.
  intros t l j HT C Hj. pose proof HT as (L1 & _). pose proof HY as (D & _).
  pose proof (nth_In (pointsOf (localTask y r t) l) 0 Hj) as Hin. apply (C06_listed_under_its_level _ l _ (local_wfGrid t HT) C) in Hin. destruct Hin as [_ Hin].
  pose proof (containsL_length _ _ C) as LL. change (gLevel (cGrid (localTask y r t))) with (sLevel t) in *.
  unfold levelOf. apply nth_ext_Z; rewrite map_dims_length; [lia|]. intros i Hi. rewrite map_dims_nth by auto.
  destruct (pointIndex_nth t l j i HT C Hj Hi) as [-> _]. apply Hin. lia.
Qed.

(** Values of the tasks on this rank. *)
Lemma local_value : forall t H l j, wfTask y t -> represents (taskCfg y (sLevel t)) H (sData t) -> containsL (localTask y r t) l ->
  (j < length (pointsOf (localTask y r t) l))%nat -> cValues (localTask y r t) (nth j (pointsOf (localTask y r t) l) 0) = H (pointIndex t l j).
Proof.
  intros t H l j HT HR C Hj. destruct (local_point t (nth j (pointsOf (localTask y r t) l) 0) HT) as [I E].
  { apply (points_range t l); auto. now apply nth_In. }
  specialize (HR r _ Hr I). rewrite E in HR. exact HR.
Qed.

Lemma vleb_level : forall l t, wfTask y t -> Forall (Z.le 1) l -> length l = length (yRef y) -> (vleb l (sLevel t) = true <-> containsL (localTask y r t) l).
Proof.
  intros l t (L1 & _) P E. apply (vleb_contains (localTask y r t)); auto. change (gLevel (cGrid (localTask y r t))) with (sLevel t). lia.
Qed.

Lemma contribution_eq : forall H t u l j, wfTask y t -> wfTask y u -> represents (taskCfg y (sLevel u)) (H u) (sData u) ->
  containsL (localTask y r t) l -> (j < length (pointsOf (localTask y r t) l))%nat ->
  contribution l (Z.of_nat j) (localTask y r u) =
  (if vleb l (sLevel u) then sCoeff u * H u (sameIndex y (sLevel t) (sLevel u) (pointIndex t l j)) else 0)%Qc.
Proof.
  intros H t u l j HT HU HR Ct Hj. unfold contribution. change (gLevel (cGrid (localTask y r u))) with (sLevel u).
  destruct (vleb l (sLevel u)) eqn:E; auto.
  assert (Cu : containsL (localTask y r u) l).
  { apply (vleb_level l u HU); auto.
    - apply Forall_forall. intros x Hx. pose proof (Forall2_In_l _ _ _ _ Ct Hx) as (z & _ & B). lia.
    - rewrite (containsL_length _ _ Ct). apply HT. }
  destruct (pointIndex_same t u l j HT HU Ct Cu Hj) as [Hj' EP]. rewrite Nat2Z.id. rewrite (local_value u (H u)) by auto. now rewrite EP.
Qed.

Lemma local_combined : forall H all t l j, wfTask y t -> Forall (wfTask y) all -> (forall u, In u all -> represents (taskCfg y (sLevel u)) (H u) (sData u)) ->
  In t all -> containsL (localTask y r t) l -> (j < length (pointsOf (localTask y r t) l))%nat ->
  forall c', combinedTask (yLevels y) (map (localTask y r) all) (localTask y r t) c' ->
  cValues c' (nth j (pointsOf (localTask y r t) l) 0) = combinedAt y all H t (pointIndex t l j).
Proof.
  intros H all t l j HT HA HR Hin C Hj c' (_ & _ & _ & V). destruct (V l j C Hj) as [V1 V2]. cbv zeta in V1, V2. unfold combinedAt. cbv zeta.
  rewrite (pointIndex_level t l j HT C Hj). destruct (in_dec (list_eq_dec Z.eq_dec) l (yLevels y)) as [I|I].
  - rewrite V1 by auto. unfold weightedSum. rewrite map_map. apply qsum_ext. intros u Hu. rewrite Forall_forall in HA. apply contribution_eq; auto.
  - rewrite V2 by auto. now apply local_value; auto.
Qed.
End Local.

(** ** All ranks *)

(** The state changes only in the values of the tasks. *)
Definition sameKind (t t' : SysTask) : Prop := exists d, t' = withData t d.

Lemma sameKind_wf : forall y t t', sameKind t t' -> wfTask y t -> wfTask y t'.
Proof. intros y t t' [d ->] H. exact H. Qed.
Lemma sameKind_refl : forall t, sameKind t t.
Proof. intros [L c th d]. exists d. reflexivity. Qed.
Lemma sameKind_trans : forall a b c, sameKind a b -> sameKind b c -> sameKind a c.
Proof. intros a b c [d ->] [e ->]. exists e. reflexivity. Qed.

Definition sameTasks : list (list SysTask) -> list (list SysTask) -> Prop := Forall2 (Forall2 sameKind).
Lemma Forall2_refl' : forall {A} (P : A -> A -> Prop), (forall a, P a a) -> forall l, Forall2 P l l.
Proof. intros A P H l. induction l; constructor; auto. Qed.
Lemma Forall2_trans' : forall {A} (P : A -> A -> Prop), (forall a b c, P a b -> P b c -> P a c) -> forall l l' l'', Forall2 P l l' -> Forall2 P l' l'' -> Forall2 P l l''.
Proof.
  intros A P H l l' l'' F. revert l''. induction F as [|a b l l' HA F IH]; intros l'' F'; inversion F'; subst; constructor; eauto.
Qed.
Lemma sameTasks_refl : forall ts, sameTasks ts ts.
Proof. intros. apply Forall2_refl'. intros. apply Forall2_refl'. apply sameKind_refl. Qed.
Lemma sameTasks_trans : forall a b c, sameTasks a b -> sameTasks b c -> sameTasks a c.
Proof. intros a b c. apply Forall2_trans'. apply Forall2_trans'. apply sameKind_trans. Qed.

Lemma Forall2_concat' : forall {A B} (P : A -> B -> Prop) l l', Forall2 (Forall2 P) l l' -> Forall2 P (concat l) (concat l').
Proof. intros A B P l l' F. induction F; cbn [concat]; [constructor|]. now apply Forall2_app. Qed.

Lemma sameTasks_wf : forall y ts ts', sameTasks ts ts' -> Forall (wfTask y) (concat ts) -> Forall (wfTask y) (concat ts').
Proof.
  intros y ts ts' F H. apply Forall2_concat' in F. apply Forall_forall. intros t' Ht'. destruct (Forall2_In_r _ _ _ _ F Ht') as (t & Ht & K).
  rewrite Forall_forall in H. apply (sameKind_wf y t); auto.
Qed.

Lemma local_tasksFit : forall y tasks r, wfSetup y -> 0 <= r < zprod (yProcs y) -> Forall (wfTask y) (concat tasks) ->
  tasksFit (length (yRef y)) (map (map (localTask y r)) tasks).
Proof.
  intros y tasks r HY Hr HA. rewrite Forall_forall in HA. unfold tasksFit. rewrite <- concat_map.
  split; [|split].
  - apply Forall_forall. intros c Hc. apply in_map_iff in Hc. destruct Hc as (t & <- & Ht). apply local_good; auto.
  - intros a b l Ha Hb Ca Cb. apply in_map_iff in Ha, Hb. destruct Ha as (t & <- & Ht), Hb as (u & <- & Hu).
    pose proof (same_refPos y HY r Hr t u l (HA t Ht) (HA u Hu) Ca Cb) as E. apply (f_equal (@length _)) in E. now rewrite !map_length in E.
  - intros c l Hc Cl. apply in_map_iff in Hc. destruct Hc as (t & <- & Ht). pose proof (HA t Ht) as HT. pose proof HT as (_ & _ & _ & X). destruct (X r Hr) as (_ & _ & SZ).
    assert (ND : NoDup (pointsOf (localTask y r t) l)) by (apply fgPoints_NoDup; auto; now apply local_wfGrid).
    assert (IN : incl (pointsOf (localTask y r t) l) (zrange 0 (zprod (hLocalSizes (taskCfg y (sLevel t)) r)))).
    { intros k Hk. apply zrange_In. apply (points_range y HY r Hr t l); auto. }
    pose proof (NoDup_incl_length ND IN) as LE. unfold zrange in LE. rewrite zseq_length in LE.
    assert (0 < zprod (hLocalSizes (taskCfg y (sLevel t)) r)) by (apply zprod_posExt; apply (localSizes_pos _ (taskCfg_wf y t HY HT) r Hr)).
    lia.
Qed.

(** The combined values on all ranks represent the combined function. *)
Lemma combined_represents : forall y H all t t', wfSetup y -> Forall (wfTask y) all -> (forall u, In u all -> represents (taskCfg y (sLevel u)) (H u) (sData u)) ->
  In t all -> sLevel t' = sLevel t ->
  (forall r, 0 <= r < zprod (yProcs y) -> exists c', combinedTask (yLevels y) (map (localTask y r) all) (localTask y r t) c' /\ sData t' r = cValues c') ->
  represents (taskCfg y (sLevel t')) (combinedAt y all H t) (sData t').
Proof.
  intros y H all t t' HY HA HR Hin EL HC. rewrite EL. assert (HT : wfTask y t) by (rewrite Forall_forall in HA; auto).
  intros r v Hr Hv. cbn [taskCfg hProcs] in Hr. destruct (HC r Hr) as (c' & CC & ->).
  pose proof (local_good y HY r Hr t HT) as G.
  pose proof (localSizes_pos _ (taskCfg_wf y t HY HT) r Hr) as PE.
  set (k := sequentialIndex (hLocalSizes (taskCfg y (sLevel t)) r) v).
  assert (EK : k = lin (hLocalSizes (taskCfg y (sLevel t)) r) v) by (unfold k; now apply sequentialIndex_lin).
  assert (Hk : 0 <= k < zprod (gSizes (cGrid (localTask y r t)))).
  { rewrite EK. change (gSizes (cGrid (localTask y r t))) with (hLocalSizes (taskCfg y (sLevel t)) r). now apply lin_range. }
  destruct (points_cover _ _ k G Hk) as (l & j & C & Hj & EJ). rewrite <- EJ.
  rewrite (local_combined y HY r Hr H all t l j HT HA HR Hin C Hj c' CC). f_equal. unfold pointIndex. rewrite EJ. f_equal.
  rewrite getVectorIndex_unlin by (auto; exact Hk). rewrite EK. now apply unlin_lin.
Qed.

(** ** Taking the system apart and putting it together *)

Lemma mapO_Forall2 : forall {A B} (f : A -> option B) l l', mapO f l = Some l' -> Forall2 (fun a b => f a = Some b) l l'.
Proof.
  intros A B f l. induction l as [|a l IH]; intros l' E; cbn [mapO] in E; [injection E as <-; constructor|].
  destruct (f a) eqn:Ea; [|discriminate]. destruct (mapO f l) eqn:El; [|discriminate]. injection E as <-. constructor; auto.
Qed.

Lemma mapO_total : forall {A B} (f : A -> option B) l, (forall a, In a l -> exists b, f a = Some b) -> exists l', mapO f l = Some l'.
Proof.
  intros A B f l. induction l as [|a l IH]; intros H; [exists []; reflexivity|]. cbn [mapO]. destruct (H a (or_introl eq_refl)) as [b ->].
  destruct IH as [l' ->]; [intros x Hx; apply H; now right|]. eauto.
Qed.

Lemma ranks_nth : forall {B} (f : Z -> option B) n (gss : list B) d r, mapO f (zrange 0 n) = Some gss -> 0 <= r < n -> f r = Some (nth (Z.to_nat r) gss d).
Proof.
  intros B f n gss d r E Hr. apply mapO_Forall2 in E.
  assert (N : nth_error (zrange 0 n) (Z.to_nat r) = Some r).
  { unfold zrange. rewrite (nth_error_nth' _ 0) by (rewrite zseq_length; lia). f_equal. rewrite zseq_nth by lia. lia. }
  destruct (Forall2_nth_error _ _ _ _ _ E N) as (b & Nb & Eb). rewrite Eb. f_equal. symmetry. now apply nth_error_nth.
Qed.

Lemma nth_error_numbered : forall {A B} (f : nat * A -> B) (l : list A) k,
  nth_error (map f (combine (seq 0 (length l)) l)) k = match nth_error l k with Some a => Some (f (k, a)) | None => None end.
Proof.
  intros A B f l. assert (G : forall l s k, nth_error (map f (combine (seq s (length l)) l)) k = match nth_error l k with Some a => Some (f ((s + k)%nat, a)) | None => None end).
  { induction l0 as [|a l0 IH]; intros s k; [destruct k; reflexivity|]. cbn [length seq combine map]. destruct k as [|k]; cbn [nth_error]; [now rewrite Nat.add_0_r|].
    rewrite IH. now rewrite Nat.add_succ_r. }
  intros k. apply G.
Qed.

Lemma gather_nth : forall tasks gss g, nth_error (gatherTasks tasks gss) g =
  match nth_error tasks g with
  | Some ts => Some (map (fun kt => withData (snd kt) (fun r => resultAt gss r g (fst kt))) (combine (seq 0 (length ts)) ts))
  | None => None
  end.
Proof. intros tasks gss g. unfold gatherTasks. rewrite nth_error_numbered. destruct (nth_error tasks g); reflexivity. Qed.

Lemma Forall2_from_nth : forall {A B} (P : A -> B -> Prop) l l', (forall k, match nth_error l k, nth_error l' k with Some a, Some b => P a b | None, None => True | _, _ => False end) ->
  Forall2 P l l'.
Proof.
  intros A B P l. induction l as [|a l IH]; intros [|b l'] H; [constructor| | |].
  - specialize (H 0%nat). destruct H.
  - specialize (H 0%nat). destruct H.
  - constructor; [exact (H 0%nat)|]. apply IH. intros k. exact (H (S k)).
Qed.
Lemma Forall2_to_nth : forall {A B} (P : A -> B -> Prop) l l', Forall2 P l l' ->
  forall k, match nth_error l k, nth_error l' k with Some a, Some b => P a b | None, None => True | _, _ => False end.
Proof. intros A B P l l' F. induction F; intros [|k]; cbn [nth_error]; auto. apply IHF. Qed.

Lemma gather_same : forall tasks gss, sameTasks tasks (gatherTasks tasks gss).
Proof.
  intros tasks gss. apply Forall2_from_nth. intros g. rewrite gather_nth. destruct (nth_error tasks g) as [ts|]; auto.
  apply Forall2_from_nth. intros k. rewrite nth_error_numbered. destruct (nth_error ts k) as [t|]; auto. eexists. reflexivity.
Qed.

(** The tasks of the ranks' results belong to the gathered tasks. *)
Lemma gather_spec : forall (Q : Z -> SysTask -> Comp -> Prop) tasks gss n,
  (forall r, 0 <= r < n -> Forall2 (fun ts G => Forall2 (Q r) ts (gTasks G)) tasks (nth (Z.to_nat r) gss [])) ->
  Forall2 (Forall2 (fun t t' => sameKind t t' /\ forall r, 0 <= r < n -> exists c, Q r t c /\ sData t' r = cValues c)) tasks (gatherTasks tasks gss).
Proof.
  intros Q tasks gss n H. apply Forall2_from_nth. intros g. rewrite gather_nth. destruct (nth_error tasks g) as [ts|] eqn:Eg; auto.
  apply Forall2_from_nth. intros k. rewrite nth_error_numbered. destruct (nth_error ts k) as [t|] eqn:Ek; auto. cbn [fst snd].
  split; [eexists; reflexivity|]. intros r Hr. destruct (Forall2_nth_error _ _ _ _ _ (H r Hr) Eg) as (G & EG & FG).
  destruct (Forall2_nth_error _ _ _ _ _ FG Ek) as (c & Ec & Qc). exists c. split; auto. cbn [withData sData]. unfold resultAt. rewrite EG, Ec. reflexivity.
Qed.

Lemma gather_local : forall y tasks gss n r, 0 <= r < n ->
  Forall2 (fun ts G => Forall2 (fun t c => c = withValues (localTask y r t) (cValues c)) ts (gTasks G)) tasks (nth (Z.to_nat r) gss []) ->
  map gTasks (nth (Z.to_nat r) gss []) = map (map (localTask y r)) (gatherTasks tasks gss).
Proof.
  intros y tasks gss n r Hr F.
  assert (EQ : forall {A} (l l' : list A), (forall k, nth_error l k = nth_error l' k) -> l = l').
  { intros A l. induction l as [|a l IH]; intros [|b l'] H; auto; [specialize (H 0%nat); discriminate|specialize (H 0%nat); discriminate|].
    pose proof (H 0%nat) as H0. injection H0 as <-. f_equal. apply IH. intros k. exact (H (S k)). }
  apply EQ. intros g. rewrite !nth_error_map, gather_nth. pose proof (Forall2_to_nth _ _ _ F g) as Fg.
  destruct (nth_error tasks g) as [ts|] eqn:Eg, (nth_error (nth (Z.to_nat r) gss []) g) as [G|] eqn:EG; try contradiction; auto.
  cbn [option_map]. f_equal. apply EQ. intros k. rewrite nth_error_map, nth_error_numbered. pose proof (Forall2_to_nth _ _ _ Fg k) as Fk.
  destruct (nth_error ts k) as [t|] eqn:Ek, (nth_error (gTasks G) k) as [c|] eqn:Ec; try contradiction; auto. cbn [option_map fst snd]. f_equal.
  rewrite Fk. unfold localTask, withValues, withData. cbn [sLevel sCoeff sThreads sData cGrid cCoeff cThreads cValues].
  unfold resultAt. rewrite EG, Ec. reflexivity.
Qed.

Lemma localGroups_eq : forall y tasks ds gs r, map gTasks gs = map (map (localTask y r)) tasks -> ds r = map (fun g => (gDsg g, gComms g)) gs ->
  localGroups y {| sTasks := tasks; sDsgs := ds |} r = gs.
Proof.
  intros y tasks ds gs r E D. unfold localGroups. cbn [sTasks sDsgs]. rewrite D. clear D ds. revert tasks E. induction gs as [|[gt gd gc] gs IH]; intros [|ts tasks] E; try discriminate; auto.
  cbn [map] in E. injection E as E1 E2. cbn [map combine fst snd gDsg gComms]. rewrite (IH tasks) by auto. cbn [gTasks] in E1. now rewrite <- E1.
Qed.

Lemma localGroups_tasks : forall y S r, length (sDsgs S r) = length (sTasks S) -> map gTasks (localGroups y S r) = map (map (localTask y r)) (sTasks S).
Proof.
  intros y S r. unfold localGroups. rewrite map_map. generalize (sDsgs S r). generalize (sTasks S). induction l as [|ts l IH]; intros [|d ds] E; try discriminate; auto.
  cbn [combine map fst snd gTasks]. f_equal. apply IH. now injection E.
Qed.

Lemma allTasks_local : forall y S r, length (sDsgs S r) = length (sTasks S) -> allTasks (localGroups y S r) = map (localTask y r) (concat (sTasks S)).
Proof. intros y S r E. unfold allTasks. rewrite flat_map_concat_map, localGroups_tasks by auto. symmetry. apply concat_map. Qed.

Lemma localGroups_solved : forall y tasks tasks' ds r, sameTasks tasks tasks' ->
  Forall2 solved (localGroups y {| sTasks := tasks; sDsgs := ds |} r) (localGroups y {| sTasks := tasks'; sDsgs := ds |} r).
Proof.
  intros y tasks tasks' ds r F. unfold localGroups. cbn [sTasks sDsgs]. generalize (ds r). induction F as [|ts ts' tasks tasks' H F IH]; intros d; [constructor|].
  destruct d as [|x d]; [constructor|]. cbn [combine map]. constructor; [|apply IH]. unfold solved. cbn [gTasks gDsg gComms fst snd]. split; auto.
  clear - H. induction H as [|t t' ts ts' [dt ->] H IH]; constructor; auto. reflexivity.
Qed.

Lemma combinedTask_solved : forall levels all c c', combinedTask levels all c c' -> c' = withValues c (cValues c').
Proof. intros levels all [g k v t] [g' k' v' t'] (A & B & C & _). cbn in *. subst. reflexivity. Qed.

(** ** Hierarchization of all tasks *)

Lemma sweepTask_spec : forall y de stale t G, wfSetup y -> wfTask y t -> represents (taskCfg y (sLevel t)) G (sData t) ->
  exists t', sweepTask y de stale t = Some t' /\ sameKind t t' /\ represents (taskCfg y (sLevel t)) (opAll (taskCfg y (sLevel t)) de (dims y) G) (sData t').
Proof.
  intros y de stale t G HY HT HG. pose proof (taskCfg_wf y t HY HT) as HW. pose proof HT as (L1 & _).
  destruct (sweepDims_spec (taskCfg y (sLevel t)) de (dims y) stale G (sData t) HW) as [A _]; auto.
  { intros k Hk. apply dims_In in Hk. cbn [taskCfg hLevels]. lia. }
  destruct (A (taskCfg_supported y t HY HT)) as (d & E & R). exists (withData t d). split.
  - unfold sweepTask, dehierarchizeAll, hierarchizeAll. unfold dims in E. rewrite <- L1 in E. destruct de; cbv beta; change (hLevels (taskCfg y (sLevel t))) with (sLevel t); rewrite E; reflexivity.
  - split; [eexists; reflexivity|]. exact R.
Qed.

Lemma sweepTasks_spec : forall y de stale tasks (G : SysTask -> list Z -> Qc), wfSetup y -> Forall (wfTask y) (concat tasks) ->
  (forall t, In t (concat tasks) -> represents (taskCfg y (sLevel t)) (G t) (sData t)) ->
  exists tasks', sweepTasks y de stale tasks = Some tasks' /\
    Forall2 (Forall2 (fun t t' => sameKind t t' /\ sweepTask y de stale t = Some t' /\ represents (taskCfg y (sLevel t)) (opAll (taskCfg y (sLevel t)) de (dims y) (G t)) (sData t'))) tasks tasks'.
Proof.
  intros y de stale tasks G HY HW HR. rewrite Forall_forall in HW.
  assert (T : forall t, In t (concat tasks) -> exists t', sweepTask y de stale t = Some t' /\ sameKind t t' /\ represents (taskCfg y (sLevel t)) (opAll (taskCfg y (sLevel t)) de (dims y) (G t)) (sData t')).
  { intros t Ht. apply sweepTask_spec; auto. }
  clear HW HR. unfold sweepTasks. induction tasks as [|ts tasks IH]; [exists []; split; [reflexivity|constructor]|].
  destruct IH as (tasks' & E' & F'); [intros t Ht; apply T; cbn [concat]; apply in_or_app; now right|].
  assert (S : exists ts', mapO (sweepTask y de stale) ts = Some ts' /\ Forall2 (fun t t' => sameKind t t' /\ sweepTask y de stale t = Some t' /\ represents (taskCfg y (sLevel t)) (opAll (taskCfg y (sLevel t)) de (dims y) (G t)) (sData t')) ts ts').
  { assert (T' : forall t, In t ts -> exists t', sweepTask y de stale t = Some t' /\ sameKind t t' /\ represents (taskCfg y (sLevel t)) (opAll (taskCfg y (sLevel t)) de (dims y) (G t)) (sData t')).
    { intros t Ht. apply T. cbn [concat]. apply in_or_app. now left. }
    clear - T'. induction ts as [|t ts IH]; [exists []; split; [reflexivity|constructor]|]. destruct (T' t (or_introl eq_refl)) as (t' & E & K & R).
    destruct IH as (ts' & Es & Fs); [intros x Hx; apply T'; now right|]. exists (t' :: ts'). cbn [mapO]. rewrite E, Es. split; auto. }
  destruct S as (ts' & Es & Fs). exists (ts' :: tasks'). cbn [mapO]. rewrite Es, E'. split; auto.
Qed.

(** ** The same point in two grids *)

Lemma sameIndex1_spec : forall b L L' i, 0 <= b <= 2 -> 1 <= L -> 1 <= L' -> 0 <= i < 2 ^ L + b - 1 -> Z.max 1 (getLevel b L i) <= L' ->
  let i' := sameIndex1 b L L' i in gridPos b i * 2 ^ L' = gridPos b i' * 2 ^ L /\ 0 <= i' < 2 ^ L' + b - 1.
Proof.
  intros b L L' i Hb HL HL' Hi Hl i'. rewrite getLevel_lev in Hl. set (p := gridPos b i) in *.
  pose proof (pow2_pos L ltac:(lia)) as PL. pose proof (pow2_pos L' ltac:(lia)) as PL'.
  assert (Hp : 0 <= p <= 2 ^ L /\ (b = 0 -> 0 < p < 2 ^ L) /\ (b = 1 -> p < 2 ^ L)) by (unfold p, gridPos; destruct (Z.eqb_spec b 0); lia).
  pose proof (lev_range L p ltac:(lia) ltac:(lia)) as LR.
  assert (D : (2 ^ (L - lev L p) | p)) by (apply lev_divides; lia).
  destruct D as [q Eq]. assert (PW : 2 ^ L = 2 ^ lev L p * 2 ^ (L - lev L p)) by (rewrite <- Z.pow_add_r by lia; f_equal; lia).
  assert (PW' : 2 ^ L' = 2 ^ lev L p * 2 ^ (L' - lev L p)) by (rewrite <- Z.pow_add_r by lia; f_equal; lia).
  assert (X : p * 2 ^ L' = q * 2 ^ (L' - lev L p) * 2 ^ L) by (rewrite Eq at 1; rewrite PW', PW; ring).
  assert (GP : gridPos b i' = q * 2 ^ (L' - lev L p)).
  { unfold i', sameIndex1. fold p. rewrite X, Z.div_mul by lia. unfold gridPos. destruct (b =? 0); lia. }
  rewrite GP. split; auto. set (p' := q * 2 ^ (L' - lev L p)) in *.
  assert (B : 0 <= p' <= 2 ^ L' /\ (b = 0 -> 0 < p' < 2 ^ L') /\ (b = 1 -> p' < 2 ^ L')) by (clearbody p'; nia).
  unfold gridPos in GP. destruct (Z.eqb_spec b 0); lia.
Qed.

Lemma isPoint_nth : forall y t w, wfSetup y -> wfTask y t -> (isPoint y t w <-> length w = length (yRef y) /\
  forall k, (k < length (yRef y))%nat -> 0 <= nth k w 0 < 2 ^ nth k (sLevel t) 0 + nth k (yBnds y) 0 - 1).
Proof.
  intros y t w HY HT. unfold isPoint. rewrite inBox_nth.
  assert (LG : length (globalSizes (sLevel t) (yBnds y)) = length (yRef y)).
  { pose proof HY as (_ & LB & _). pose proof HT as (L1 & _). unfold globalSizes. rewrite map2_length; lia. }
  rewrite LG. split; intros [E H]; split; auto; intros k Hk; specialize (H k ltac:(lia)); rewrite (task_sizes y HY) in * by (auto; lia); auto.
Qed.

Lemma levelOf_length : forall y L w, length (levelOf y L w) = length (yRef y).
Proof. intros. apply map_dims_length. Qed.
Lemma levelOf_pos : forall y L w, Forall (Z.le 1) (levelOf y L w).
Proof. intros. apply Forall_forall. intros x Hx. apply in_map_iff in Hx. destruct Hx as (i & <- & _). lia. Qed.

Lemma sameIndex_point : forall y t u w, wfSetup y -> wfTask y t -> wfTask y u -> isPoint y t w -> vleb (levelOf y (sLevel t) w) (sLevel u) = true ->
  isPoint y u (sameIndex y (sLevel t) (sLevel u) w) /\
  forall k, (k < length (yRef y))%nat -> gridPos (nth k (yBnds y) 0) (nth k w 0) * 2 ^ nth k (sLevel u) 0 =
     gridPos (nth k (yBnds y) 0) (nth k (sameIndex y (sLevel t) (sLevel u) w) 0) * 2 ^ nth k (sLevel t) 0.
Proof.
  intros y t u w HY HT HU Hw Hl. apply (isPoint_nth y t w HY HT) in Hw. destruct Hw as [Lw Hw].
  pose proof HT as (T1 & T2 & _). pose proof HU as (U1 & U2 & _). pose proof HY as (_ & _ & _ & _ & HK & _).
  apply vleb_spec in Hl; [|rewrite levelOf_length; lia]. apply (Forall2_nth_iff _ _ _ 0 0) in Hl. destruct Hl as [_ Hl]. rewrite levelOf_length in Hl.
  assert (X : forall k, (k < length (yRef y))%nat -> let i' := nth k (sameIndex y (sLevel t) (sLevel u) w) 0 in
     gridPos (nth k (yBnds y) 0) (nth k w 0) * 2 ^ nth k (sLevel u) 0 = gridPos (nth k (yBnds y) 0) i' * 2 ^ nth k (sLevel t) 0 /\ 0 <= i' < 2 ^ nth k (sLevel u) 0 + nth k (yBnds y) 0 - 1).
  { intros k Hk. unfold sameIndex. rewrite map_dims_nth by auto. specialize (Hl k Hk). cbv beta in Hl. unfold levelOf in Hl. rewrite map_dims_nth in Hl by auto.
    destruct (HK k Hk) as (_ & B & _). apply sameIndex1_spec; auto; try (specialize (T2 k Hk); lia); try (specialize (U2 k Hk); lia). }
  split; [|intros k Hk; now apply X]. apply (isPoint_nth y u _ HY HU). split; [apply map_dims_length|]. intros k Hk. now apply X.
Qed.

Lemma local_inside : forall c r v, wfCfg c -> 0 <= r < zprod (hProcs c) -> inBox (hLocalSizes c r) v -> inBox (hSizes c) (vadd (hLower c r) v).
Proof.
  intros c r v HW Hr Hv. pose proof HW as (_ & _ & _ & V & _). destruct (lower_len c HW r Hr) as (L1 & L2 & L3). destruct (lens c HW) as [LP _].
  pose proof (inBox_length _ _ Hv) as Lv. apply (owns_inside (hProcs c) (hSizes c) (hDecs c) _ r); auto. split; [rewrite vadd_length; lia|].
  intros i Hi. rewrite vadd_nth by lia. apply inBox_nth in Hv. destruct Hv as [_ Hv]. specialize (Hv i ltac:(lia)).
  rewrite (localSizes_nth c HW r i Hr ltac:(lia)) in Hv. unfold hLower, hUpper in *. lia.
Qed.

Lemma represents_box : forall c G data, wfCfg c -> represents c G data -> boxEq (hSizes c) (gridFunction c data) G.
Proof.
  intros c G data HW HR w Hw. pose proof HW as (_ & _ & _ & V & _). destruct (partitionCoords_inBox _ _ _ _ V Hw) as [PI [OL PO]].
  unfold gridFunction. set (r := rankOfCoords (hProcs c) (partitionCoords (hDecs c) w)) in *. assert (Hr : 0 <= r < zprod (hProcs c)) by now apply rank_range.
  destruct (lower_len c HW r Hr) as (L1 & L2 & L3). destruct (lens c HW) as [LP _].
  assert (VV : forall a b, length a = length b -> vadd a (vsub b a) = b).
  { induction a as [|x a IH]; intros [|z b] H; simpl in *; try lia; auto. rewrite IH by lia. f_equal. lia. }
  rewrite (HR r (vsub w (hLower c r)) Hr).
  - rewrite VV by lia. reflexivity.
  - apply inBox_nth. rewrite vsub_length by lia. split; [lia|]. intros i Hi. rewrite HierNDProofs.vsub_nth by lia.
    rewrite (localSizes_nth c HW r i Hr ltac:(lia)). specialize (PO i ltac:(lia)). unfold hLower, hUpper in *. lia.
Qed.

Lemma combinedAt_ext : forall y all all' (H H' : SysTask -> list Z -> Qc) t t', wfSetup y -> wfTask y t -> Forall (wfTask y) all ->
  Forall2 (fun u u' => sLevel u' = sLevel u /\ sCoeff u' = sCoeff u /\ forall w, isPoint y u w -> H' u' w = H u w) all all' ->
  sLevel t' = sLevel t -> (forall w, isPoint y t w -> H' t' w = H t w) ->
  forall w, isPoint y t w -> combinedAt y all' H' t' w = combinedAt y all H t w.
Proof.
  intros y all all' H H' t t' HY HT HA F EL HTT w Hw. unfold combinedAt. cbv zeta. rewrite EL. destruct (in_dec _ _ _) as [I|I]; [|auto]. clear I.
  induction F as [|u u' us us' (A & B & C) F IH]; auto. inversion HA; subst. cbn [map]. change (qsum (?a :: ?b)) with (a + qsum b)%Qc.
  rewrite IH by auto. f_equal. rewrite A, B. destruct (vleb (levelOf y (sLevel t) w) (sLevel u)) eqn:E; auto. f_equal. apply C.
  now apply (sameIndex_point y t u w).
Qed.

(** ** The reachable states *)

(** Solving changes the values of the tasks, combining is combineAtOnce. *)
Inductive sysReachable (y : Setup) (v : CombinationVariant) (esz : Z) (tasks : list (list SysTask)) : System -> Prop :=
| sys_start : forall S, startSystem y v esz tasks = Some S -> sysReachable y v esz tasks S
| sys_solve : forall S tasks', sysReachable y v esz tasks S -> sameTasks (sTasks S) tasks' ->
    sysReachable y v esz tasks {| sTasks := tasks'; sDsgs := sDsgs S |}
| sys_combine : forall S S' chunk order staleH staleD, sysReachable y v esz tasks S -> 0 < chunk < 2 ^ 31 ->
    (forall r, 0 <= r < zprod (yProcs y) -> anyOrder (localGroups y S r) (order r)) ->
    combineSystem y v esz chunk order staleH staleD S = Some S' -> sysReachable y v esz tasks S'.

Section Reach.
Variables (y : Setup) (v : CombinationVariant) (esz : Z) (tasks : list (list SysTask)).
Hypothesis HY : wfSetup y.
Hypothesis HT : Forall (wfTask y) (concat tasks).
Hypothesis HV : forall r, 0 <= r < zprod (yProcs y) -> variantFits v (yLevels y) (map (map (localTask y r)) tasks).

Definition sysInv (S : System) : Prop :=
  sameTasks tasks (sTasks S) /\ forall r, 0 <= r < zprod (yProcs y) ->
    length (sDsgs S r) = length (sTasks S) /\ reachable v esz (yLevels y) (map (map (localTask y r)) tasks) (localGroups y S r).

Lemma start_ok : exists S, startSystem y v esz tasks = Some S /\ sTasks S = tasks /\ sysInv S.
Proof.
  pose proof HY as (_ & _ & _ & _ & _ & (rest & EL) & HL & HP).
  assert (I : forall r, 0 <= r < zprod (yProcs y) -> exists gs, initGroups v esz (yLevels y) (map (map (localTask y r)) tasks) = Some gs /\ map gTasks gs = map (map (localTask y r)) tasks).
  { intros r Hr. pose proof (local_tasksFit y tasks r HY Hr HT) as TF. pose proof (HV r Hr) as V. rewrite EL in *. now apply (C31_start v esz (length (yRef y)) rest). }
  destruct (mapO_total (fun r => initGroups v esz (yLevels y) (map (map (localTask y r)) tasks)) (zrange 0 (zprod (yProcs y)))) as [gss E].
  { intros r Hr. apply zrange_In in Hr. destruct (I r Hr) as (gs & -> & _). eauto. }
  unfold startSystem. rewrite E. eexists. split; [reflexivity|]. split; [reflexivity|]. split; [apply sameTasks_refl|]. intros r Hr. cbn [sTasks sDsgs].
  pose proof (ranks_nth _ _ _ [] _ E Hr) as Er. cbv beta in Er. destruct (I r Hr) as (gs & E1 & E2). assert (nth (Z.to_nat r) gss [] = gs) as EG by congruence.
  unfold gatherDsgs. rewrite EG. split; [rewrite map_length, <- (map_length gTasks gs), E2, map_length; reflexivity|].
  rewrite (localGroups_eq y tasks (fun r => map (fun g => (gDsg g, gComms g)) (nth (Z.to_nat r) gss [])) gs r) by (auto; now rewrite EG). now apply reach_init.
Qed.

Lemma solve_ok : forall S tasks', sysInv S -> sameTasks (sTasks S) tasks' -> sysInv {| sTasks := tasks'; sDsgs := sDsgs S |}.
Proof.
  intros S tasks' [A B] K. split; [now apply (sameTasks_trans _ (sTasks S))|]. intros r Hr. destruct (B r Hr) as [B1 B2]. cbn [sTasks sDsgs]. split.
  - rewrite B1. now apply Forall2_length with (1 := K).
  - apply (reach_solve _ _ _ _ (localGroups y S r)); auto. destruct S as [ts ds]. now apply localGroups_solved.
Qed.

(** One combination. *)
Lemma combine_ok : forall S chunk order staleH staleD, sysInv S -> 0 < chunk < 2 ^ 31 ->
  (forall r, 0 <= r < zprod (yProcs y) -> anyOrder (localGroups y S r) (order r)) ->
  exists S', combineSystem y v esz chunk order staleH staleD S = Some S' /\ sysInv S' /\
    Forall2 (Forall2 (fun t t' => sameKind t t' /\
      represents (taskCfg y (sLevel t)) (nodal y (sLevel t) (combinedAt y (concat (sTasks S)) (fun u => surplus y (sLevel u) (valueAt y u)) t)) (sData t'))) (sTasks S) (sTasks S').
Proof.
  intros S chunk order staleH staleD [A B] HC HO. pose proof HY as (_ & _ & _ & _ & _ & (rest & EL) & HL & HP).
  pose proof (sameTasks_wf y _ _ A HT) as WS. pose proof (proj1 (Forall_forall _ _) WS) as WS'.
  destruct (sweepTasks_spec y false staleH (sTasks S) (valueAt y) HY WS) as (ts1 & E1 & F1).
  { intros t Ht. apply C19_state_is_grid_function. apply taskCfg_wf; auto. }
  assert (K1 : sameTasks (sTasks S) ts1).
  { eapply Forall2_imp2; [|exact F1]. intros a b F. eapply Forall2_imp2; [|exact F]. tauto. }
  unfold combineSystem. rewrite E1. cbv zeta.
  set (S1 := {| sTasks := ts1; sDsgs := sDsgs S |}).
  pose proof (solve_ok S ts1 (conj A B) K1) as [A1 B1]. fold S1 in A1, B1.
  pose proof (sameTasks_wf y _ _ A1 HT) as W1. cbn [S1 sTasks] in W1. pose proof (proj1 (Forall_forall _ _) W1) as W1'.
  (* reduce and distribute on every rank *)
  assert (ST : forall r, 0 <= r < zprod (yProcs y) -> exists gs', combineStep v esz chunk (order r) (yLevels y) (localGroups y S1 r) = Some gs' /\
     reachable v esz (yLevels y) (map (map (localTask y r)) tasks) gs' /\
     Forall2 (fun ts g' => Forall2 (fun t c' => combinedTask (yLevels y) (map (localTask y r) (concat ts1)) (localTask y r t) c') ts (gTasks g')) ts1 gs').
  { intros r Hr. destruct (B1 r Hr) as [BL BR]. pose proof (local_tasksFit y tasks r HY Hr HT) as TF. pose proof (HV r Hr) as V.
    assert (OR : anyOrder (localGroups y S1 r) (order r)).
    { specialize (HO r Hr). unfold anyOrder in *. destruct S as [ts ds]. cbn [sTasks sDsgs] in *. pose proof (localGroups_solved y ts ts1 ds r K1) as SV. fold S1 in SV.
      eapply Permutation_trans; [exact HO|]. apply Permutation_refl'. clear - SV.
      assert (LE : length (localGroups y S1 r) = length (localGroups y {| sTasks := ts; sDsgs := ds |} r)) by (symmetry; now apply Forall2_length with (1 := SV)).
      rewrite LE. unfold allComms. f_equal. rewrite !flat_map_concat_map. f_equal. apply map_ext. intros q. pose proof (Forall2_to_nth _ _ _ SV q) as X.
      destruct (nth_error (localGroups y {| sTasks := ts; sDsgs := ds |} r) q), (nth_error (localGroups y S1 r) q); try contradiction; auto. destruct X as (_ & _ & ->). reflexivity. }
    pose proof BR as BR'. rewrite EL in *.
    destruct (C31_combination_step v esz (length (yRef y)) rest _ (localGroups y S1 r) chunk (order r) HL HP TF V BR HC OR) as (gs' & E & F).
    exists gs'. split; auto. split; [now apply (reach_combine _ _ _ _ (localGroups y S1 r) gs' chunk (order r))|].
    rewrite allTasks_local in F by auto. change (sTasks S1) with ts1 in F.
    assert (MT : map gTasks (localGroups y S1 r) = map (map (localTask y r)) ts1) by (now apply localGroups_tasks).
    revert F MT. generalize (localGroups y S1 r). generalize (map (localTask y r) (concat ts1)). clearbody S1. clear. intros all gs F. revert ts1. induction F as [|g g' gs gs' H F IH]; intros [|ts ts1] MT; try discriminate; constructor.
    - cbn [map] in MT. injection MT as MT _. rewrite MT in H. clear - H. revert H. generalize (gTasks g'). induction ts as [|t ts IH]; intros l H; inversion H; subst; constructor; auto.
    - cbn [map] in MT. injection MT as _ MT. auto. }
  destruct (mapO_total (fun r => combineStep v esz chunk (order r) (yLevels y) (localGroups y S1 r)) (zrange 0 (zprod (yProcs y)))) as [gss E2].
  { intros r Hr. apply zrange_In in Hr. destruct (ST r Hr) as (gs' & -> & _). eauto. }
  rewrite E2.
  assert (STr : forall r, 0 <= r < zprod (yProcs y) -> reachable v esz (yLevels y) (map (map (localTask y r)) tasks) (nth (Z.to_nat r) gss []) /\
     Forall2 (fun ts g' => Forall2 (fun t c' => combinedTask (yLevels y) (map (localTask y r) (concat ts1)) (localTask y r t) c') ts (gTasks g')) ts1 (nth (Z.to_nat r) gss [])).
  { intros r Hr. pose proof (ranks_nth _ _ _ [] _ E2 Hr) as Er. cbv beta in Er. destruct (ST r Hr) as (gs' & E & R1 & F1'). rewrite Er in E. injection E as ->. auto. }
  set (ts2 := gatherTasks ts1 gss).
  pose proof (gather_same ts1 gss) as K2. fold ts2 in K2.
  assert (I2 : sysInv {| sTasks := ts2; sDsgs := gatherDsgs gss |}).
  { split; [apply (sameTasks_trans _ ts1); [exact A1|exact K2]|]. intros r Hr. cbn [sTasks sDsgs]. destruct (STr r Hr) as [R1 F2].
    assert (ML : map gTasks (nth (Z.to_nat r) gss []) = map (map (localTask y r)) ts2).
    { apply (gather_local y ts1 gss (zprod (yProcs y)) r Hr). eapply Forall2_imp2; [|exact F2]. intros ts g' F. eapply Forall2_imp2; [|exact F]. intros t c'. apply combinedTask_solved. }
    split.
    - unfold gatherDsgs. rewrite map_length. rewrite <- (map_length gTasks (nth (Z.to_nat r) gss [])), ML, map_length. reflexivity.
    - rewrite (localGroups_eq y ts2 (gatherDsgs gss) (nth (Z.to_nat r) gss []) r); auto. }
  (* the combined values *)
  pose proof (gather_spec (fun r t c' => combinedTask (yLevels y) (map (localTask y r) (concat ts1)) (localTask y r t) c') ts1 gss (zprod (yProcs y)) (fun r Hr => proj2 (STr r Hr))) as F2. fold ts2 in F2.
  pose proof (sameTasks_wf y _ _ K2 W1) as W2. pose proof (proj1 (Forall_forall _ _) W2) as W2'.
  assert (V1 : forall u, In u (concat ts1) -> represents (taskCfg y (sLevel u)) (valueAt y u) (sData u)).
  { intros u Hu. apply C19_state_is_grid_function. apply taskCfg_wf; auto. }
  destruct (sweepTasks_spec y true staleD ts2 (valueAt y) HY W2) as (ts3 & E3 & F3).
  { intros t Ht. apply C19_state_is_grid_function. apply taskCfg_wf; auto. }
  rewrite E3. eexists. split; [reflexivity|]. split.
  { apply (solve_ok {| sTasks := ts2; sDsgs := gatherDsgs gss |}); auto. cbn [sTasks]. eapply Forall2_imp2; [|exact F3]. intros a b F. eapply Forall2_imp2; [|exact F]. tauto. }
  cbn [sTasks].
  assert (FA : Forall2 (fun u u' => sLevel u' = sLevel u /\ sCoeff u' = sCoeff u /\ forall w, isPoint y u w -> valueAt y u' w = surplus y (sLevel u) (valueAt y u) w) (concat (sTasks S)) (concat ts1)).
  { assert (F1c : Forall2 (fun u u' => wfTask y u /\ sameKind u u' /\ represents (taskCfg y (sLevel u)) (opAll (taskCfg y (sLevel u)) false (dims y) (valueAt y u)) (sData u')) (concat (sTasks S)) (concat ts1)).
    { apply Forall2_concat' in F1. clear - F1 WS'. induction F1 as [|a b l l' (A & _ & C) F IH]; constructor; [split; [apply WS'; now left|auto]|]. apply IH. intros x Hx. apply WS'. now right. }
    eapply Forall2_imp2; [|exact F1c]. intros u u' (WU & [d ->] & RU). split; [reflexivity|]. split; [reflexivity|]. intros w Hw.
    apply (represents_box (taskCfg y (sLevel u)) _ _ (taskCfg_wf y u HY WU) RU w). exact Hw. }
  (* put the three steps together *)
  assert (F12 : Forall2 (Forall2 (fun t t2 => wfTask y t /\ sameKind t t2 /\ represents (taskCfg y (sLevel t)) (combinedAt y (concat (sTasks S)) (fun u => surplus y (sLevel u) (valueAt y u)) t) (sData t2))) (sTasks S) ts2).
  { apply Forall2_from_nth. intros g. pose proof (Forall2_to_nth _ _ _ F1 g) as P1. pose proof (Forall2_to_nth _ _ _ F2 g) as P2.
    destruct (nth_error (sTasks S) g) as [a|] eqn:Ea, (nth_error ts1 g) as [b|] eqn:Eb, (nth_error ts2 g) as [c|] eqn:Ec; try contradiction; auto.
    apply Forall2_from_nth. intros k. pose proof (Forall2_to_nth _ _ _ P1 k) as Q1. pose proof (Forall2_to_nth _ _ _ P2 k) as Q2.
    destruct (nth_error a k) as [t|] eqn:Et, (nth_error b k) as [t1|] eqn:Et1, (nth_error c k) as [t2|] eqn:Et2; try contradiction; auto.
    assert (Ht : In t (concat (sTasks S))) by (apply in_concat; exists a; split; eapply nth_error_In; eauto).
    assert (Ht1 : In t1 (concat ts1)) by (apply in_concat; exists b; split; eapply nth_error_In; eauto).
    destruct Q1 as (K & _ & RP). destruct Q2 as (K' & X). split; [auto|]. split; [now apply (sameKind_trans t t1)|].
    assert (EL1 : sLevel t1 = sLevel t) by (destruct K as [d ->]; reflexivity). assert (EL2 : sLevel t2 = sLevel t1) by (destruct K' as [d ->]; reflexivity).
    pose proof (combined_represents y (valueAt y) (concat ts1) t1 t2 HY W1 V1 Ht1 EL2 X) as CR. rewrite EL2, EL1 in CR.
    intros r v0 Hr Hv0. rewrite (CR r v0 Hr Hv0).
    assert (WT : wfTask y t) by auto. pose proof (taskCfg_wf y t HY WT) as HW.
    assert (IB : isPoint y t (vadd (hLower (taskCfg y (sLevel t)) r) v0)).
    { exact (local_inside (taskCfg y (sLevel t)) r v0 HW Hr Hv0). }
    apply (combinedAt_ext y (concat (sTasks S)) (concat ts1) (fun u => surplus y (sLevel u) (valueAt y u)) (valueAt y) t t1); auto.
    intros w Hw. destruct K as [d ->]. apply (represents_box (taskCfg y (sLevel t)) _ _ HW RP w). exact Hw. }
  apply Forall2_from_nth. intros g. pose proof (Forall2_to_nth _ _ _ F12 g) as P1. pose proof (Forall2_to_nth _ _ _ F3 g) as P2.
  destruct (nth_error (sTasks S) g) as [a|] eqn:Ea, (nth_error ts2 g) as [b|] eqn:Eb, (nth_error ts3 g) as [c|] eqn:Ec; try contradiction; auto.
  apply Forall2_from_nth. intros k. pose proof (Forall2_to_nth _ _ _ P1 k) as Q1. pose proof (Forall2_to_nth _ _ _ P2 k) as Q2.
  destruct (nth_error a k) as [t|] eqn:Et, (nth_error b k) as [t2|] eqn:Et1, (nth_error c k) as [t3|] eqn:Et2; try contradiction; auto.
  destruct Q1 as (WT & K & RP), Q2 as (K' & _ & RP'). split; [now apply (sameKind_trans t t2)|].
  assert (EL2 : sLevel t2 = sLevel t) by (destruct K as [d ->]; reflexivity). rewrite EL2 in RP'. pose proof (taskCfg_wf y t HY WT) as HW.
  assert (BE : boxEq (hSizes (taskCfg y (sLevel t))) (valueAt y t2) (combinedAt y (concat (sTasks S)) (fun u => surplus y (sLevel u) (valueAt y u)) t)).
  { unfold valueAt at 1. rewrite EL2. apply represents_box; auto. }
  assert (KS : forall k, In k (dims y) -> (k < length (hLevels (taskCfg y (sLevel t))))%nat).
  { intros q Hq. apply dims_In in Hq. cbn [taskCfg hLevels]. destruct WT as (-> & _). auto. }
  pose proof (opAll_ext _ true (dims y) _ _ HW KS BE) as OE. intros r v0 Hr Hv0. rewrite (RP' r v0 Hr Hv0). apply OE.
  now apply local_inside.
Qed.
End Reach.
