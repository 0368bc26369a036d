(** Proofs about WideChunkedSystemModel.v: every process has a point that two tasks have in common. *)
From Verif Require Import Base TensorModel TensorProofs PartitionModel PartitionProofs DecompModel DecompProofs DofModel DofProofs Level1dModel
  Level1dProofs LevelSetsModel LevelSetsProofs SubspaceModel SubspaceProofs SubspaceProps CombiSchemeModel CombiSchemeProofs Hier1dModel Hier1dProofs HierMassProofs Hier1dProps
  DistHierModel DistHierProofs DistExchangeProofs DistPoleProofs HierNDModel HierNDProofs HierLinProofs HierNDProps
  SparseGridModel SparseGridProofs CombineModel SparseTransferProofs SparseGridProps ReduceModel ReduceProofs VoteProofs SubspaceReduceProofs
  CombiStepModel CombiStepProofs CombiInitProofs CombiStepProps FileModel FileProps ExchangeModel ExchangeProps
  WideModel WideProofs WideStepProofs WideInitProofs WideProps SystemModel SystemProofs SystemProps WideSystemModel WideSystemProofs.
From Coq Require Import QArith Qcanon Permutation.
Open Scope Z_scope.
Ltac Zify.zify_post_hook ::= idtac.

Lemma choice_list : forall (P : nat -> Z -> Prop) n, (forall i, (i < n)%nat -> exists x, P i x) -> exists v, length v = n /\ forall i, (i < n)%nat -> P i (nth i v 0).
Proof.
  intros P n. revert P. induction n as [|n IH]; intros P H; [exists []; split; auto; intros; lia|].
  destruct (H 0%nat ltac:(lia)) as [x Hx]. destruct (IH (fun i => P (S i))) as (v & L & Hv); [intros i Hi; apply H; lia|].
  exists (x :: v). split; [cbn; lia|]. intros [|i] Hi; auto. apply Hv. lia.
Qed.

Section Common.
Variables (y : Setup).
Hypothesis HY : wfSetup y.
Variable r : Z.
Hypothesis Hr : 0 <= r < zprod (yProcs y).

(** The bounds of the local part in one dimension. *)
Lemma local_bounds1 : forall t i, wfTask y t -> (i < length (yRef y))%nat ->
  let d' := map (downsample1 (nth i (yRef y) 0) (nth i (sLevel t) 0) (nth i (yBnds y) 0)) (nth i (yDecs y) []) in
  let c := nth i (coordsOfRank (yProcs y) r) 0 in
  0 <= c < Z.of_nat (length (nth i (yDecs y) [])) /\
  nth i (gLower (cGrid (localTask y r t))) 0 = lo1 d' c /\ nth i (gUpper (cGrid (localTask y r t))) 0 = up1 d' (2 ^ nth i (sLevel t) 0 + nth i (yBnds y) 0 - 1) c /\
  nth i (gLower (cGrid (localTask y r t))) 0 < nth i (gUpper (cGrid (localTask y r t))) 0.
Proof.
  intros t i HT Hi d' c. pose proof HT as (L1 & L2 & V & _). pose proof HY as (D & LB & LM & VY & HK & _). pose proof V as (V1 & V2 & V3). pose proof VY as (Y1 & Y2 & Y3).
  rewrite downsample_length in V1, V2, V3. assert (LD : length (yDecs y) = length (yRef y)) by (rewrite <- Y2; unfold globalSizes; rewrite map2_length; lia).
  pose proof (validDec_shape _ _ _ V) as S. cbn [localTask cGrid gridOfRank gLower gUpper].
  rewrite (lowerBounds_nth (yProcs y) (globalSizes (sLevel t) (yBnds y))), upperBounds_nth by (auto; rewrite ?downsample_length; lia).
  rewrite (task_sizes y HY t i HT Hi). destruct (V3 i ltac:(lia)) as [E V4]. rewrite (task_sizes y HY t i HT Hi) in V4. rewrite downsample_nth in * by lia. fold d' in E, V4 |- *. fold c.
  assert (LD' : length d' = length (nth i (yDecs y) [])) by (unfold d'; now rewrite map_length).
  assert (C : 0 <= c < Z.of_nat (length (nth i (yDecs y) []))).
  { pose proof (coordsOfRank_inBox (yProcs y) r (validDec_pos _ _ _ V) Hr) as IB. apply inBox_nth in IB as [_ IB]. specialize (IB i ltac:(lia)). fold c in IB. rewrite E, LD' in IB. exact IB. }
  split; auto. split; auto. split; auto. rewrite <- LD' in C. pose proof (validDec1_range _ _ _ V4 C). lia.
Qed.

(** In every dimension the rank has a point that lies on both grids. *)
Lemma common_point1 : forall t u i, wfTask y t -> wfTask y u -> (i < length (yRef y))%nat -> exists w,
  nth i (gLower (cGrid (localTask y r t))) 0 <= w < nth i (gUpper (cGrid (localTask y r t))) 0 /\
  1 <= Z.max 1 (getLevel (nth i (yBnds y) 0) (nth i (sLevel t) 0) w) <= Z.min (nth i (sLevel t) 0) (nth i (sLevel u) 0).
Proof.
  intros t u i HT HU Hi. pose proof (local_bounds1 t i HT Hi) as BT. pose proof (local_bounds1 u i HU Hi) as BU. cbv zeta in BT, BU.
  destruct HT as (_ & LT & _). destruct HU as (_ & LU & _). specialize (LT i Hi). specialize (LU i Hi). pose proof HY as (_ & _ & _ & VY & HK & _). destruct (HK i Hi) as (_ & B & _).
  set (b := nth i (yBnds y) 0) in *. set (Lt := nth i (sLevel t) 0) in *. set (Lu := nth i (sLevel u) 0) in *. set (R := nth i (yRef y) 0) in *.
  set (c := nth i (coordsOfRank (yProcs y) r) 0) in *. set (dec := nth i (yDecs y) []) in *.
  set (lt := nth i (gLower (cGrid (localTask y r t))) 0) in *. set (ut := nth i (gUpper (cGrid (localTask y r t))) 0) in *.
  set (lu := nth i (gLower (cGrid (localTask y r u))) 0) in *. set (uu := nth i (gUpper (cGrid (localTask y r u))) 0) in *.
  destruct BT as (C & ET1 & ET2 & PT). destruct BU as (_ & EU1 & EU2 & PU).
  assert (ND : forall L, 1 <= L -> numDofNodal1 L b = Some (2 ^ L + b - 1)).
  { intros L HL. unfold numDofNodal1. destruct (Z.gtb_spec L 0); [reflexivity|lia]. }
  assert (NN : forall L, 0 <= lo1 (map (downsample1 R L b) dec) c -> True) by auto.
  assert (LO : forall L, L <= R -> 1 <= L -> 0 <= lo1 (map (downsample1 R L b) dec) c).
  { intros L HL HL'. unfold lo1. rewrite (nth_indep _ 0 (downsample1 R L b 0)) by (rewrite map_length; lia). rewrite map_nth.
    assert (D0 : 0 <= nth (Z.to_nat c) dec 0).
    { destruct VY as (V1 & V2 & V3). assert (LD : length (yDecs y) = length (yRef y)). { pose proof HY as (_ & LB & _). rewrite <- V2. unfold globalSizes. rewrite map2_length; lia. }
      destruct (V3 i ltac:(lia)) as (_ & W). pose proof (validDec1_range _ _ c W ltac:(unfold dec in C; lia)) as X. unfold lo1 in X. fold dec in X. lia. }
    unfold downsample1. pose proof (pow2_pos (R - L) ltac:(lia)). destruct (b >? 0); [|lia].
    destruct (Z.le_gt_cases 0 (cdiv (nth (Z.to_nat c) dec 0) (2 ^ (R - L)))); auto. pose proof (proj1 (cdiv_le (nth (Z.to_nat c) dec 0) (2 ^ (R - L)) (-1) ltac:(lia)) ltac:(lia)). nia. }
  destruct (Z.le_gt_cases Lt Lu) as [LE|LE].
  - exists lt. split; [lia|]. assert (H0 : 0 <= lt) by (rewrite ET1; apply LO; lia).
    assert (IN : lt < 2 ^ Lt + b - 1).
    { pose proof (downsample_owner1 R Lt b dec (2 ^ R + b - 1) (2 ^ Lt + b - 1) lt (gridPos b lt * 2 ^ (R - Lt) - (if b =? 0 then 1 else 0)) c ltac:(lia) B (ND R ltac:(lia)) (ND Lt ltac:(lia)) H0) as O.
      specialize (O ltac:(unfold gridPos; destruct (b =? 0); lia) C). cbv zeta in O. rewrite <- ET1, <- ET2 in O. destruct O as [O _]. specialize (O ltac:(lia)).
      apply (same_point_inside R Lt b lt (gridPos b lt * 2 ^ (R - Lt) - (if b =? 0 then 1 else 0))); try lia; [unfold gridPos; destruct (b =? 0); lia|].
      assert (UP : up1 dec (2 ^ R + b - 1) c <= 2 ^ R + b - 1); [|lia].
      destruct VY as (V1 & V2 & V3). assert (LD : length (yDecs y) = length (yRef y)). { pose proof HY as (_ & LB & _). rewrite <- V2. unfold globalSizes. rewrite map2_length; lia. }
      destruct (V3 i ltac:(lia)) as (_ & W). assert (GS : nth i (globalSizes (yRef y) (yBnds y)) 0 = 2 ^ R + b - 1).
      { pose proof HY as (_ & LB & _). unfold globalSizes. rewrite (map2_nth _ _ _ _ _ _ i 0 0) by lia. fold R b. rewrite ND by lia. reflexivity. }
      rewrite GS in W. pose proof (validDec1_range _ _ c W ltac:(unfold dec in C; lia)) as X. fold dec in X. lia. }
    rewrite getLevel_lev. pose proof (lev_range Lt (gridPos b lt) ltac:(lia) (numDof_range b Lt lt B ltac:(lia))). lia.
  - (* the first point of the coarser grid *)
    assert (H0 : 0 <= lu) by (rewrite EU1; apply LO; lia).
    set (off := if b =? 0 then 1 else 0). set (f := gridPos b lu * 2 ^ (R - Lu) - off). set (w := gridPos b lu * 2 ^ (Lt - Lu) - off).
    assert (GF : gridPos b f = gridPos b lu * 2 ^ (R - Lu)) by (unfold f, off, gridPos; destruct (b =? 0); lia).
    assert (GW : gridPos b w = gridPos b lu * 2 ^ (Lt - Lu)) by (unfold w, off, gridPos; destruct (b =? 0); lia).
    pose proof (pow2_pos (Lt - Lu) ltac:(lia)) as P. assert (HW0 : 0 <= w) by (unfold w, off, gridPos in *; destruct (b =? 0); nia).
    assert (GFW : gridPos b f = gridPos b w * 2 ^ (R - Lt)) by (rewrite GF, GW, <- Z.mul_assoc, <- Z.pow_add_r by lia; do 2 f_equal; lia).
    pose proof (downsample_owner1 R Lu b dec _ _ lu f c ltac:(lia) B (ND R ltac:(lia)) (ND Lu ltac:(lia)) H0 GF C) as O1. cbv zeta in O1. rewrite <- EU1, <- EU2 in O1.
    pose proof (downsample_owner1 R Lt b dec _ _ w f c ltac:(lia) B (ND R ltac:(lia)) (ND Lt ltac:(lia)) HW0 GFW C) as O2. cbv zeta in O2. rewrite <- ET1, <- ET2 in O2.
    assert (IW : lt <= w < ut) by (apply O2, O1; lia). exists w. split; auto.
    assert (UB : w < 2 ^ Lt + b - 1).
    { apply (same_point_inside R Lt b w f); try lia. assert (UP : up1 dec (2 ^ R + b - 1) c <= 2 ^ R + b - 1).
      { destruct VY as (V1 & V2 & V3). assert (LD : length (yDecs y) = length (yRef y)). { pose proof HY as (_ & LB & _). rewrite <- V2. unfold globalSizes. rewrite map2_length; lia. }
        destruct (V3 i ltac:(lia)) as (_ & W). assert (GS : nth i (globalSizes (yRef y) (yBnds y)) 0 = 2 ^ R + b - 1).
        { pose proof HY as (_ & LB & _). unfold globalSizes. rewrite (map2_nth _ _ _ _ _ _ i 0 0) by lia. fold R b. rewrite ND by lia. reflexivity. }
        rewrite GS in W. pose proof (validDec1_range _ _ c W ltac:(unfold dec in C; lia)) as X. fold dec in X. lia. }
      assert (lo1 dec c <= f < up1 dec (2 ^ R + b - 1) c) by (apply O1; lia). lia. }
    rewrite getLevel_lev. pose proof (numDof_range b Lt w B ltac:(lia)) as RW. pose proof (lev_range Lt (gridPos b w) ltac:(lia) RW).
    assert (lev Lt (gridPos b w) <= Lu) by (apply (lev_divides Lt (gridPos b w) Lu); try lia; rewrite GW; apply Z.divide_factor_r). lia.
Qed.

Lemma common_subspace : forall t u, wfTask y t -> wfTask y u -> exists l, containsL (localTask y r t) l /\ containsL (localTask y r u) l /\ pointsOf (localTask y r t) l <> [].
Proof.
  intros t u HT HU. destruct (choice_list _ (length (yRef y)) (fun i Hi => common_point1 t u i HT HU Hi)) as (w & LW & HW).
  set (l := map (fun i => Z.max 1 (getLevel (nth i (yBnds y) 0) (nth i (sLevel t) 0) (nth i w 0))) (dims y)). exists l. pose proof HT as (T1 & T2 & _). pose proof HU as (U1 & U2 & _).
  assert (LL : length l = length (yRef y)) by apply map_dims_length.
  assert (NL : forall i, (i < length (yRef y))%nat -> nth i l 0 = Z.max 1 (getLevel (nth i (yBnds y) 0) (nth i (sLevel t) 0) (nth i w 0))) by (intros i Hi; unfold l; now rewrite map_dims_nth).
  assert (CT : containsL (localTask y r t) l).
  { apply contains_iff. apply (Forall2_nth_iff _ _ _ 0 0). split; [lia|]. intros i Hi. rewrite NL by lia. destruct (HW i ltac:(lia)) as [_ X]. lia. }
  split; auto. split.
  { apply contains_iff. apply (Forall2_nth_iff _ _ _ 0 0). split; [lia|]. intros i Hi. rewrite NL by lia. destruct (HW i ltac:(lia)) as [_ X]. lia. }
  pose proof (local_wfGrid y HY r Hr t HT) as WG. set (g := cGrid (localTask y r t)) in *. set (v := map (fun i => nth i w 0 - nth i (gLower g) 0) (dims y)).
  pose proof (taskCfg_wf y t HY HT) as HC. destruct (lower_len _ HC r Hr) as (A1 & A2 & A3). cbn [taskCfg hLevels] in A1, A2, A3.
  pose proof (localSizes_pos _ HC r Hr) as PS.
  assert (SZ : forall i, (i < length (yRef y))%nat -> nth i (gSizes g) 0 = nth i (gUpper g) 0 - nth i (gLower g) 0).
  { intros i Hi. change (gSizes g) with (hLocalSizes (taskCfg y (sLevel t)) r). rewrite localSizes_nth; auto. cbn [taskCfg hLevels]. lia. }
  assert (IB : inBox (gSizes g) v).
  { apply inBox_nth. split; [unfold v; rewrite map_dims_length; change (gSizes g) with (hLocalSizes (taskCfg y (sLevel t)) r); lia|]. intros i Hi.
    change (gSizes g) with (hLocalSizes (taskCfg y (sLevel t)) r) in Hi. rewrite A3 in Hi. unfold v. rewrite map_dims_nth, SZ by lia. destruct (HW i ltac:(lia)) as [X _]. fold g in X. lia. }
  intros E. assert (IN : In (lin (gSizes g) v) (pointsOf (localTask y r t) l)); [|rewrite E in IN; destruct IN].
  apply (C06_listed_under_its_level g l); auto. pose proof (lin_range _ _ IB) as RG. split; auto. intros d Hd. change (gLevel g) with (sLevel t) in *. rewrite getVectorIndex_unlin by (auto; exact PS).
  rewrite unlin_lin by auto. unfold v. rewrite map_dims_nth by lia. change (gBnd g) with (yBnds y). rewrite NL by lia. do 2 f_equal. lia.
Qed.
End Common.

(** Two systems with a task each whose common subspaces belong to the sparse grid: every process has a point in the files. *)
Definition shareTasks (y : Setup) (tasks : list (list (list SysTask))) : Prop :=
  exists s s' ts ts' t u, s <> s' /\ nth_error tasks s = Some ts /\ nth_error tasks s' = Some ts' /\ In t (concat ts) /\ In u (concat ts') /\
    forall l, Forall2 (fun x b => 1 <= x <= b) l (sLevel t) -> Forall2 (fun x b => 1 <= x <= b) l (sLevel u) -> In l (yLevels y).

Lemma processTasks_concat : forall y tasks p, Z.of_nat p < zprod (yProcs y) -> tasksOfProcess (processTasks y tasks) p = map (map (localTask y (Z.of_nat p))) (concat tasks).
Proof.
  intros y tasks p Hp. unfold tasksOfProcess, processTasks. rewrite map_map, concat_map. f_equal. apply map_ext. intros ts.
  apply nth_error_nth. rewrite nth_error_map', zrange_nth_error. destruct (Z.ltb_spec (Z.of_nat p) (zprod (yProcs y))); [reflexivity|lia].
Qed.

Lemma zsum_pos_In : forall (f : list Z -> Z) ls l, (forall x, 0 <= f x) -> In l ls -> 0 < f l -> 0 < zsum (map f ls).
Proof.
  intros f ls l H0 HI HF. induction ls as [|a ls IH]; [destruct HI|]. cbn [map]. change (zsum (?a :: ?b)) with (a + zsum b).
  assert (N : 0 <= zsum (map f ls)). { clear - H0. induction ls as [|b ls IH]; [apply Z.le_refl|]. cbn [map]. change (zsum (?a :: ?b)) with (a + zsum b). pose proof (H0 b). lia. }
  destruct HI as [->|HI]; [lia|]. specialize (IH HI). pose proof (H0 a). lia.
Qed.

Lemma shared_positive : forall y tasks p, wfSetup y -> Forall (wfTask y) (concat (concat tasks)) -> shareTasks y tasks -> Z.of_nat p < zprod (yProcs y) ->
  0 < sharedPoints (yLevels y) (processTasks y tasks) p.
Proof.
  intros y tasks p HY HT (s & s' & ts & ts' & t & u & N & Es & Es' & Ht & Hu & HL) Hp. pose proof (proj1 (Forall_forall _ _) HT) as HT'. set (r := Z.of_nat p) in *. assert (Hr : 0 <= r < zprod (yProcs y)) by lia.
  assert (INt : In t (concat (concat tasks))) by (apply in_concat in Ht; destruct Ht as (g & Hg & Ht); apply in_concat; exists g; split; auto; apply in_concat; exists ts; split; auto; now apply nth_error_In in Es).
  assert (INu : In u (concat (concat tasks))) by (apply in_concat in Hu; destruct Hu as (g & Hg & Hu); apply in_concat; exists g; split; auto; apply in_concat; exists ts'; split; auto; now apply nth_error_In in Es').
  destruct (common_subspace y HY r Hr t u (HT' t INt) (HT' u INu)) as (l & Ct & Cu & NE).
  pose proof (local_tasksFit y (concat tasks) r HY Hr HT) as (TG & TA & TB).
  assert (CN : forall q, 0 <= pointsAt (processTasks y tasks) p q).
  { intros q. unfold pointsAt. rewrite processTasks_concat by auto. apply cntOf_range. intros c l0 Hc. now apply TB. }
  unfold sharedPoints. apply (zsum_pos_In _ _ l).
  - intros x. destruct (2 <=? _)%nat; auto. lia.
  - apply HL; now apply (contains_iff y r).
  - assert (TW : (2 <= systemsWith (processTasks y tasks) p l)%nat).
    { unfold systemsWith. rewrite <- (Nat.leb_le 2). apply Nat.leb_le.
      apply (two_in_filter (fun cs => existsb (fun c => vleb l (gLevel (cGrid c))) (concat (nth p cs []))) (processTasks y tasks) s s'
        (map (fun q => map (map (localTask y q)) ts) (zrange 0 (zprod (yProcs y)))) (map (fun q => map (map (localTask y q)) ts') (zrange 0 (zprod (yProcs y))))); auto.
      - rewrite processTasks_nth. now rewrite Es.
      - rewrite processTasks_nth. now rewrite Es'.
      - rewrite (nth_error_nth _ p (x := map (map (localTask y r)) ts)) by (rewrite nth_error_map', zrange_nth_error; destruct (Z.ltb_spec (Z.of_nat p) (zprod (yProcs y))); [reflexivity|lia]).
        apply existsb_exists. exists (localTask y r t). split; [rewrite <- concat_map; now apply in_map|]. apply (vleb_level y r l); auto.
        + apply Forall_forall. intros x Hx. pose proof (Forall2_In_l _ _ _ _ Ct Hx) as (z & _ & B). lia.
        + rewrite (containsL_length _ _ Ct). apply HT'; auto.
      - rewrite (nth_error_nth _ p (x := map (map (localTask y r)) ts')) by (rewrite nth_error_map', zrange_nth_error; destruct (Z.ltb_spec (Z.of_nat p) (zprod (yProcs y))); [reflexivity|lia]).
        apply existsb_exists. exists (localTask y r u). split; [rewrite <- concat_map; now apply in_map|]. apply (vleb_level y r l); auto.
        + apply Forall_forall. intros x Hx. pose proof (Forall2_In_l _ _ _ _ Cu Hx) as (z & _ & B). lia.
        + rewrite (containsL_length _ _ Cu). apply HT'; auto. }
    destruct (Nat.leb_spec 2 (systemsWith (processTasks y tasks) p l)); [|lia]. unfold pointsAt. rewrite processTasks_concat by auto. fold r.
    rewrite <- (cntOf_spec _ (localTask y r t) l TA); [destruct (pointsOf (localTask y r t) l); [contradiction|cbn; lia]| |exact Ct].
    rewrite <- concat_map. now apply in_map.
Qed.
