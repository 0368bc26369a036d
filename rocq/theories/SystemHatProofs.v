(** Hierarchization with hat functions keeps the agreement of grids of different levels at their common points. *)
From Verif Require Import Base TensorModel TensorProofs PartitionModel PartitionProofs DecompModel DecompProofs DofModel DofProofs Level1dModel
  Level1dProofs LevelSetsModel LevelSetsProofs SubspaceModel SubspaceProofs SubspaceProps CombiSchemeModel CombiSchemeProofs Hier1dModel Hier1dProofs HierMassProofs Hier1dProps
  DistHierModel DistHierProofs DistExchangeProofs DistPoleProofs HierNDModel HierNDProofs HierLinProofs HierNDProps
  SparseGridModel SparseGridProofs CombineModel SparseTransferProofs SparseGridProps ReduceModel ReduceProofs VoteProofs SubspaceReduceProofs
  CombiStepModel CombiStepProofs CombiInitProofs CombiStepProps SystemModel SystemProofs.
From Coq Require Import QArith Qcanon.
Open Scope Z_scope.
Ltac Zify.zify_post_hook ::= idtac.

(** The values of a pole by position (in mesh widths from the left end): zero at the ends if there are no boundary points,
    and periodic if there is one. *)
Definition padded (b L : Z) (g : arr) (p : Z) : Qc :=
  if b =? 0 then (if (0 <? p) && (p <? 2 ^ L) then g (p - 1) else 0%Qc)
  else if (b =? 1) && (p =? 2 ^ L) then g 0 else g p.

(** The hierarchical surplus: value minus the mean of both hierarchical neighbours, for levels above [m]. *)
Definition hatSurplus (b L m : Z) (g : arr) (p : Z) : Qc :=
  let w := 2 ^ (L - lev L p) in
  if (0 <? p) && (p <? 2 ^ L) && (m <? lev L p)
  then (padded b L g p - qhalf * (padded b L g (p - w)%Z + padded b L g (p + w)%Z))%Qc
  else padded b L g p.

Definition isHatBasis (f : basis) : Prop := f = Hat \/ f = HatPeriodic.

Lemma poleOp_hat : forall f b L m g j, 0 <= b <= 2 -> 1 <= L <= 28 -> 0 <= m < L -> (b = 0 -> f = Hat /\ m = 0) -> isHatBasis f ->
  0 <= j < 2 ^ L + b - 1 -> poleOp f false b L m (2 ^ L + b - 1) g j = hatSurplus b L m g (gridPos b j).
Proof.
  intros f b L m g j Hb HL Hm H0 Hf Hj. unfold poleOp, hierPole. rewrite Z.geb_leb. destruct (Z.leb_spec L m); [lia|]. clear H. cbv zeta.
  pose proof (pow2_pos L ltac:(lia)) as PL. rewrite Z.gtb_ltb. destruct (Z.ltb_spec 0 b) as [Bp|Bz].
  - (* with boundary points *)
    assert (EK : hierKernel f = hatHier) by (destruct Hf as [-> | ->]; reflexivity). rewrite EK.
    assert (GP : gridPos b j = j) by (unfold gridPos; destruct (Z.eqb_spec b 0); lia). rewrite GP.
    pose proof (loadPole_serial b L (2 ^ L + b - 1) (fun _ => 0%Qc) g ltac:(lia) ltac:(lia) eq_refl) as LP.
    pose proof (kernel_agree Hat L m _ _ ltac:(lia) ltac:(lia) LP) as [KA _]. cbn [hierKernel] in KA. rewrite (KA j) by (unfold onRange; lia).
    rewrite hatHier_val by lia. unfold hatSurplus, padded. destruct (Z.eqb_spec b 0); [lia|]. cbv zeta.
    destruct (_ && _ && _); [ring|reflexivity].
  - assert (b = 0) as -> by lia. destruct (H0 eq_refl) as [-> ->]. replace (2 ^ L + 0 - 1) with (2 ^ L - 1) in * by lia.
    rewrite nbHier_val by lia. change (gridPos 0 j) with (j + 1). unfold hatSurplus, padded. cbv zeta. cbn [Z.eqb].
    pose proof (lev_range L (j + 1) ltac:(lia) ltac:(lia)) as LR.
    assert (LP : 1 <= lev L (j + 1)).
    { destruct (Z.eq_dec (lev L (j + 1)) 0) as [E|]; [|lia]. exfalso. unfold lev in E. destruct (Z.eqb_spec (j + 1) 0); [lia|].
      destruct (ctz_spec (j + 1) ltac:(lia)) as (C0 & k & Hk & E2). replace (ctz (j + 1)) with L in E2 by lia. nia. }
    pose proof (proj1 (lev_mod L (j + 1) (lev L (j + 1)) ltac:(lia) ltac:(lia)) eq_refl) as MD.
    set (w := 2 ^ (L - lev L (j + 1))) in *. assert (Hw : 0 < w) by (apply pow2_pos; lia).
    destruct (Z.ltb_spec 0 (j + 1)); [|lia]. destruct (Z.ltb_spec (j + 1) (2 ^ L)); [|lia]. destruct (Z.ltb_spec 0 (lev L (j + 1))); [|lia]. cbn [andb].
    replace (j + 1 - 1) with j by lia. replace (j + 1 - w - 1) with (j - w) by lia. replace (j + 1 + w - 1) with (j + w) by lia. unfold nbVal.
    assert (S1 : (j + w <? 2 ^ L - 1) = (0 <? j + 1 + w) && (j + 1 + w <? 2 ^ L)).
    { destruct (Z.ltb_spec 0 (j + 1 + w)); [|lia]. cbn [andb]. destruct (Z.ltb_spec (j + w) (2 ^ L - 1)), (Z.ltb_spec (j + 1 + w) (2 ^ L)); lia. }
    assert (S2 : (j - w >? 0) = (0 <? j + 1 - w) && (j + 1 - w <? 2 ^ L)).
    { rewrite Z.gtb_ltb. destruct (Z.ltb_spec (j + 1 - w) (2 ^ L)); [|lia]. rewrite andb_true_r.
      assert (NE : j - w <> 0).
      { intros E. assert (X : j + 1 = w + 1) by lia. rewrite X in MD. destruct (Z.eq_dec w 1) as [->|].
        - change ((1 + 1) mod (2 * 1)) with 0 in MD. lia.
        - rewrite Z.mod_small in MD by lia. lia. }
      destruct (Z.ltb_spec 0 (j - w)), (Z.ltb_spec 0 (j + 1 - w)); lia. }
    assert (LD : forall x, 0 <= x < 2 ^ L - 1 -> loadPole 0 (2 ^ L - 1) 0 (2 ^ L - 1) (fun _ => 0%Qc) [] g x = g x) by (intros; apply loadPole_local; lia).
    rewrite S1, S2. rewrite LD by lia.
    destruct ((0 <? j + 1 + w) && (j + 1 + w <? 2 ^ L)) eqn:C1, ((0 <? j + 1 - w) && (j + 1 - w <? 2 ^ L)) eqn:C2; rewrite ?andb_true_iff, ?Z.ltb_lt in *; rewrite ?LD by lia; ring.
Qed.

(** Points with the same coordinate in grids of levels [L] and [L']. *)
Lemma same_pos : forall L L' p p', 1 <= L -> 1 <= L' -> 0 <= p <= 2 ^ L -> p * 2 ^ L' = p' * 2 ^ L ->
  0 <= p' <= 2 ^ L' /\ lev L p = lev L' p' /\ (p = 0 <-> p' = 0) /\ (p = 2 ^ L <-> p' = 2 ^ L').
Proof.
  intros L L' p p' HL HL' Hp E. pose proof (pow2_pos L ltac:(lia)) as P. pose proof (pow2_pos L' ltac:(lia)) as P'.
  assert (R : 0 <= p' <= 2 ^ L') by nia. split; auto. split; [|split; split; nia].
  destruct (Z.le_ge_cases L L') as [H|H].
  - assert (p' = p * 2 ^ (L' - L)) as ->.
    { replace (2 ^ L') with (2 ^ L * 2 ^ (L' - L)) in E by (rewrite <- Z.pow_add_r by lia; f_equal; lia). nia. }
    symmetry. apply lev_scale; lia.
  - assert (p = p' * 2 ^ (L - L')) as ->.
    { replace (2 ^ L) with (2 ^ L' * 2 ^ (L - L')) in E by (rewrite <- Z.pow_add_r by lia; f_equal; lia). nia. }
    apply lev_scale; lia.
Qed.

(** [g] and [g'] agree at the common points. *)
Definition agree1 (b L L' : Z) (g g' : arr) : Prop :=
  forall j j', 0 <= j < 2 ^ L + b - 1 -> 0 <= j' < 2 ^ L' + b - 1 -> gridPos b j * 2 ^ L' = gridPos b j' * 2 ^ L -> g j = g' j'.

Lemma padded_agree : forall b L L' g g' p p', 0 <= b <= 2 -> 1 <= L -> 1 <= L' -> agree1 b L L' g g' ->
  0 <= p <= 2 ^ L -> p * 2 ^ L' = p' * 2 ^ L -> padded b L g p = padded b L' g' p'.
Proof.
  intros b L L' g g' p p' Hb HL HL' A Hp E. destruct (same_pos L L' p p' HL HL' Hp E) as (R & _ & Z0 & Z1). unfold padded.
  pose proof (pow2_pos L ltac:(lia)) as P. pose proof (pow2_pos L' ltac:(lia)) as P'.
  destruct (Z.eqb_spec b 0) as [->|NB].
  - assert (((0 <? p) && (p <? 2 ^ L)) = ((0 <? p') && (p' <? 2 ^ L'))) as ->.
    { apply eq_true_iff_eq. rewrite !andb_true_iff, !Z.ltb_lt. lia. }
    destruct (_ && _) eqn:C; auto. rewrite andb_true_iff, !Z.ltb_lt in C. apply A; try lia. unfold gridPos. cbn [Z.eqb]. replace (p - 1 + 1) with p by lia. now replace (p' - 1 + 1) with p' by lia.
  - assert (((b =? 1) && (p =? 2 ^ L)) = ((b =? 1) && (p' =? 2 ^ L'))) as ->.
    { apply eq_true_iff_eq. rewrite !andb_true_iff, !Z.eqb_eq. lia. }
    assert (GP : forall j, gridPos b j = j) by (intros; unfold gridPos; destruct (Z.eqb_spec b 0); lia).
    destruct (_ && _) eqn:C.
    + rewrite andb_true_iff, !Z.eqb_eq in C. apply A; try lia. rewrite !GP. lia.
    + apply andb_false_iff in C. rewrite !Z.eqb_neq in C. apply A; try lia; try (rewrite !GP; lia).
Qed.

Lemma hatSurplus_agree : forall b L L' m g g' p p', 0 <= b <= 2 -> 1 <= L -> 1 <= L' -> agree1 b L L' g g' ->
  0 <= p <= 2 ^ L -> p * 2 ^ L' = p' * 2 ^ L -> hatSurplus b L m g p = hatSurplus b L' m g' p'.
Proof.
  intros b L L' m g g' p p' Hb HL HL' A Hp E. destruct (same_pos L L' p p' HL HL' Hp E) as (R & EL & Z0 & Z1).
  pose proof (pow2_pos L ltac:(lia)) as P. pose proof (pow2_pos L' ltac:(lia)) as P'.
  pose proof (lev_range L p ltac:(lia) Hp) as LR. pose proof (lev_range L' p' ltac:(lia) R) as LR'.
  unfold hatSurplus. cbv zeta. rewrite (padded_agree b L L' g g' p p' Hb HL HL' A Hp E). rewrite EL.
  assert (((0 <? p) && (p <? 2 ^ L) && (m <? lev L' p')) = ((0 <? p') && (p' <? 2 ^ L') && (m <? lev L' p'))) as ->.
  { f_equal. apply eq_true_iff_eq. rewrite !andb_true_iff, !Z.ltb_lt. lia. }
  destruct (_ && _ && _) eqn:C; auto. rewrite !andb_true_iff, !Z.ltb_lt in C.
  set (l := lev L' p') in *.
  assert (LP : 1 <= l).
  { destruct (Z.eq_dec l 0) as [E0|]; [|lia]. exfalso. unfold l, lev in E0. destruct (Z.eqb_spec p' 0); [lia|].
    destruct (ctz_spec p' ltac:(lia)) as (C0 & k & Hk & E2). replace (ctz p') with L' in E2 by lia. nia. }
  assert (WE : 2 ^ (L - l) * 2 ^ L' = 2 ^ (L' - l) * 2 ^ L) by (rewrite <- !Z.pow_add_r by lia; f_equal; lia).
  pose proof (proj1 (lev_mod L p l ltac:(lia) Hp) EL) as MD.
  assert (RW : 0 <= p - 2 ^ (L - l) /\ p + 2 ^ (L - l) <= 2 ^ L).
  { assert (Hw : 0 < 2 ^ (L - l)) by (apply pow2_pos; lia). assert (PE : 2 ^ L = 2 ^ (l - 1) * (2 * 2 ^ (L - l))).
    { rewrite <- (Z.pow_succ_r 2 (L - l)) by lia. rewrite <- Z.pow_add_r by lia. f_equal. lia. }
    pose proof (Z.div_mod p (2 * 2 ^ (L - l)) ltac:(lia)) as DM. rewrite MD in DM. pose proof (Z.div_pos p (2 * 2 ^ (L - l)) ltac:(lia) ltac:(lia)) as Q0. set (q := p / (2 * 2 ^ (L - l))) in *. clearbody q.
    set (w := 2 ^ (L - l)) in *. clearbody w. set (M := 2 ^ (l - 1)) in *. clearbody M. clear - Hw PE DM Q0 C Hp. rewrite PE in *. split; [nia|]. assert (q < M) by nia. nia. }
  rewrite (padded_agree b L L' g g' (p - 2 ^ (L - l)) (p' - 2 ^ (L' - l)) Hb HL HL' A); [|lia|rewrite !Z.mul_sub_distr_r, WE, E; reflexivity].
  rewrite (padded_agree b L L' g g' (p + 2 ^ (L - l)) (p' + 2 ^ (L' - l)) Hb HL HL' A); [|lia|rewrite !Z.mul_add_distr_r, WE, E; reflexivity]. reflexivity.
Qed.

(** Inactive dimensions: no level above [m], so nothing changes anyway. *)
Lemma hatSurplus_none : forall b L m g j, 0 <= b <= 2 -> 1 <= L -> L <= m -> 0 <= j < 2 ^ L + b - 1 -> hatSurplus b L m g (gridPos b j) = g j.
Proof.
  intros b L m g j Hb HL Hm Hj. pose proof (pow2_pos L ltac:(lia)) as P. unfold hatSurplus. cbv zeta.
  assert (R : 0 <= gridPos b j <= 2 ^ L) by (unfold gridPos; destruct (Z.eqb_spec b 0); lia).
  pose proof (lev_range L (gridPos b j) ltac:(lia) R) as LR. destruct (Z.ltb_spec m (lev L (gridPos b j))); [lia|]. rewrite andb_false_r.
  unfold padded, gridPos in *. destruct (Z.eqb_spec b 0).
  - replace (j + 1 - 1) with j by lia. destruct (Z.ltb_spec 0 (j + 1)); [|lia]. destruct (Z.ltb_spec (j + 1) (2 ^ L)); [|lia]. reflexivity.
  - destruct (Z.eqb_spec b 1); cbn [andb]; auto. destruct (Z.eqb_spec j (2 ^ L)); [lia|auto].
Qed.

(** ** All dimensions *)

Definition hatSetup (y : Setup) : Prop := forall k, (k < length (yRef y))%nat -> nth k (yDims y) false = true -> isHatBasis (nth k (yBases y) Hat).

(** The same point in both grids. *)
Definition samePoint (y : Setup) (L L' w w' : list Z) : Prop :=
  forall k, (k < length (yRef y))%nat -> gridPos (nth k (yBnds y) 0) (nth k w 0) * 2 ^ nth k L' 0 = gridPos (nth k (yBnds y) 0) (nth k w' 0) * 2 ^ nth k L 0.

Definition agreeAll (y : Setup) (t u : SysTask) (G H : list Z -> Qc) : Prop :=
  forall w w', isPoint y t w -> isPoint y u w' -> samePoint y (sLevel t) (sLevel u) w w' -> G w = H w'.

Lemma upd_nth' : forall (l : list Z) k i x, (k < length l)%nat -> nth i (upd l k x) 0 = if Nat.eqb i k then x else nth i l 0.
Proof.
  induction l as [|a l IH]; intros k i x Hk; [cbn in Hk; lia|]. destruct k as [|k]; destruct i as [|i]; cbn [upd nth Nat.eqb]; auto. apply IH. cbn in Hk. lia.
Qed.

Lemma isPoint_upd : forall y t w k i, wfSetup y -> wfTask y t -> isPoint y t w -> (k < length (yRef y))%nat ->
  0 <= i < 2 ^ nth k (sLevel t) 0 + nth k (yBnds y) 0 - 1 -> isPoint y t (upd w k i).
Proof.
  intros y t w k i HY HT Hw Hk Hi. rewrite isPoint_nth in * by auto. destruct Hw as [LW Hw]. split; [now rewrite upd_length|]. intros n Hn.
  rewrite upd_nth' by lia. destruct (Nat.eqb_spec n k) as [->|]; auto.
Qed.

Lemma dimOp_hat : forall y t k G w, wfSetup y -> wfTask y t -> hatSetup y -> (k < length (yRef y))%nat -> isPoint y t w ->
  dimOp (taskCfg y (sLevel t)) false k G w =
  if nth k (yDims y) false
  then hatSurplus (nth k (yBnds y) 0) (nth k (sLevel t) 0) (nth k (effectiveLmin y) 0) (fun i => G (upd w k i)) (gridPos (nth k (yBnds y) 0) (nth k w 0))
  else G w.
Proof.
  intros y t k G w HY HT HH Hk Hw. pose proof HY as (_ & LB & _ & _ & HK & _). destruct (HK k Hk) as (A1 & A2 & A3 & A4). pose proof HT as (L1 & L2 & _). specialize (L2 k Hk).
  destruct (effectiveLmin_spec y k HY Hk) as (_ & E1 & E2). pose proof (proj1 (isPoint_nth y t w HY HT) Hw) as [LW Pw]. specialize (Pw k Hk).
  unfold dimOp, active. cbn [taskCfg hDims hLmin hLevels hBases hBnds]. destruct (nth k (yDims y) false) eqn:D; cbn [andb]; auto.
  destruct (Z.ltb_spec (nth k (effectiveLmin y) 0) (nth k (sLevel t) 0)) as [C|C].
  - replace (nth k (hSizes (taskCfg y (sLevel t))) 0) with (2 ^ nth k (sLevel t) 0 + nth k (yBnds y) 0 - 1).
    + apply poleOp_hat; auto; try lia. intros B0. split; [|auto]. destruct (A4 eq_refl) as [X|X]; [lia|auto].
    + symmetry. now apply task_sizes.
  - rewrite hatSurplus_none by lia. now rewrite SparseGridProofs.upd_same.
Qed.

Lemma dimOp_agree : forall y t u k G H, wfSetup y -> wfTask y t -> wfTask y u -> hatSetup y -> (k < length (yRef y))%nat ->
  agreeAll y t u G H -> agreeAll y t u (dimOp (taskCfg y (sLevel t)) false k G) (dimOp (taskCfg y (sLevel u)) false k H).
Proof.
  intros y t u k G H HY HT HU HH Hk A w w' Hw Hw' SP. rewrite !dimOp_hat by auto. destruct (nth k (yDims y) false); [|now apply A].
  pose proof HY as (_ & LB & _ & _ & HK & _). destruct (HK k Hk) as (A1 & A2 & A3 & A4). pose proof HT as (_ & L2 & _). specialize (L2 k Hk). pose proof HU as (_ & L2' & _). specialize (L2' k Hk).
  pose proof (proj1 (isPoint_nth y t w HY HT) Hw) as [LW Pw]. pose proof (proj1 (isPoint_nth y u w' HY HU) Hw') as [LW' Pw']. specialize (Pw k Hk).
  apply hatSurplus_agree; try lia.
  - intros j j' Hj Hj' E. apply A; try (apply isPoint_upd; auto). intros n Hn. rewrite !upd_nth' by lia. destruct (Nat.eqb_spec n k) as [->|]; auto.
  - unfold gridPos. destruct (Z.eqb_spec (nth k (yBnds y) 0) 0); lia.
  - now apply SP.
Qed.

Lemma surplus_agree : forall y t u G H, wfSetup y -> wfTask y t -> wfTask y u -> hatSetup y ->
  agreeAll y t u G H -> agreeAll y t u (surplus y (sLevel t) G) (surplus y (sLevel u) H).
Proof.
  intros y t u G H HY HT HU HH A. unfold surplus. assert (K : forall k, In k (dims y) -> (k < length (yRef y))%nat) by (intros k; apply dims_In).
  revert G H A K. induction (dims y) as [|k ks IH]; intros G H A K; auto. cbn [opAll fold_left]. apply IH.
  - apply dimOp_agree; auto. apply K. now left.
  - intros; apply K; now right.
Qed.
