(** Dehierarchization with hat functions keeps the agreement of grids of different levels at their common points. *)
From Verif Require Import Base TensorModel TensorProofs PartitionModel PartitionProofs DecompModel DecompProofs DofModel DofProofs Level1dModel
  Level1dProofs LevelSetsModel LevelSetsProofs SubspaceModel SubspaceProofs SubspaceProps CombiSchemeModel CombiSchemeProofs Hier1dModel Hier1dProofs HierMassProofs Hier1dProps
  DistHierModel DistHierProofs DistExchangeProofs DistPoleProofs HierNDModel HierNDProofs HierLinProofs HierNDProps
  SparseGridModel SparseGridProofs CombineModel SparseTransferProofs SparseGridProps ReduceModel ReduceProofs VoteProofs SubspaceReduceProofs
  CombiStepModel CombiStepProofs CombiInitProofs CombiStepProps SystemModel SystemProofs SystemHatProofs SystemProps.
From Coq Require Import QArith Qcanon.
Open Scope Z_scope.
Ltac Zify.zify_post_hook ::= idtac.

Lemma padded_point : forall b L g j, 0 <= b <= 2 -> 0 <= j < 2 ^ L + b - 1 -> padded b L g (gridPos b j) = g j.
Proof.
  intros b L g j Hb Hj. unfold padded, gridPos. destruct (Z.eqb_spec b 0).
  - replace (j + 1 - 1) with j by lia. destruct (Z.ltb_spec 0 (j + 1)); [|lia]. destruct (Z.ltb_spec (j + 1) (2 ^ L)); [reflexivity|lia].
  - destruct (Z.eqb_spec b 1); cbn [andb]; auto. destruct (Z.eqb_spec j (2 ^ L)); [lia|auto].
Qed.

(** Values whose surpluses agree at the common points agree there. *)
Lemma hatSurplus_inv : forall b L L' m g g', 0 <= b <= 2 -> 1 <= L -> 1 <= L' ->
  (forall j j', 0 <= j < 2 ^ L + b - 1 -> 0 <= j' < 2 ^ L' + b - 1 -> gridPos b j * 2 ^ L' = gridPos b j' * 2 ^ L -> hatSurplus b L m g (gridPos b j) = hatSurplus b L' m g' (gridPos b j')) ->
  agree1 b L L' g g'.
Proof.
  intros b L L' m g g' Hb HL HL' H. pose proof (pow2_pos L ltac:(lia)) as P. pose proof (pow2_pos L' ltac:(lia)) as P'.
  assert (X : forall n p p', 0 <= p <= 2 ^ L -> p * 2 ^ L' = p' * 2 ^ L -> lev L p <= Z.of_nat n -> padded b L g p = padded b L' g' p').
  { induction n as [n IH] using lt_wf_ind. intros p p' Hp E Hn. destruct (same_pos L L' p p' HL HL' Hp E) as (R & EL & Z0 & Z1).
    destruct (Z.eq_dec p 0) as [->|N0]; [|destruct (Z.eq_dec p (2 ^ L)) as [->|N1]].
    - assert (p' = 0) as -> by lia. unfold padded. destruct (Z.eqb_spec b 0); [reflexivity|]. destruct (Z.eqb_spec 0 (2 ^ L)); [lia|]. destruct (Z.eqb_spec 0 (2 ^ L')); [lia|]. rewrite !andb_false_r.
      specialize (H 0 0 ltac:(lia) ltac:(lia)). unfold gridPos in H. destruct (Z.eqb_spec b 0); [lia|]. specialize (H eq_refl). unfold hatSurplus in H. cbn [Z.ltb Z.compare andb] in H. unfold padded in H.
      destruct (Z.eqb_spec b 0); [lia|]. destruct (Z.eqb_spec 0 (2 ^ L)); [lia|]. destruct (Z.eqb_spec 0 (2 ^ L')); [lia|]. now rewrite !andb_false_r in H.
    - assert (p' = 2 ^ L') as -> by lia. unfold padded. destruct (Z.eqb_spec b 0).
      + rewrite !Z.ltb_irrefl, !andb_false_r. reflexivity.
      + rewrite !Z.eqb_refl, !andb_true_r. destruct (Z.eqb_spec b 1) as [->|].
        * specialize (H 0 0 ltac:(lia) ltac:(lia)). unfold gridPos in H. cbn [Z.eqb] in H. specialize (H eq_refl). unfold hatSurplus in H. cbn [Z.ltb Z.compare andb] in H. unfold padded in H. cbn [Z.eqb Pos.eqb andb] in H.
          clear - H. repeat match type of H with context [if ?c then _ else _] => destruct c end; exact H.
        * assert (b = 2) as -> by lia. specialize (H (2 ^ L) (2 ^ L') ltac:(lia) ltac:(lia)). unfold gridPos in H. cbn [Z.eqb] in H. specialize (H ltac:(lia)). unfold hatSurplus in H. rewrite !Z.ltb_irrefl, !andb_false_r in H. cbn [andb] in H.
          unfold padded in H. cbn [Z.eqb Pos.eqb andb] in H. exact H.
    - assert (N0' : p' <> 0) by lia. assert (N1' : p' <> 2 ^ L') by lia.
      set (j := if b =? 0 then p - 1 else p). set (j' := if b =? 0 then p' - 1 else p').
      assert (GJ : gridPos b j = p) by (unfold gridPos, j; destruct (b =? 0); lia). assert (GJ' : gridPos b j' = p') by (unfold gridPos, j'; destruct (b =? 0); lia).
      assert (RJ : 0 <= j < 2 ^ L + b - 1) by (unfold j; destruct (Z.eqb_spec b 0); lia). assert (RJ' : 0 <= j' < 2 ^ L' + b - 1) by (unfold j'; destruct (Z.eqb_spec b 0); lia).
      specialize (H j j' RJ RJ'). rewrite GJ, GJ' in H. specialize (H E). unfold hatSurplus in H. cbv zeta in H. rewrite EL in H.
      destruct (Z.ltb_spec 0 p); [|lia]. destruct (Z.ltb_spec p (2 ^ L)); [|lia]. destruct (Z.ltb_spec 0 p'); [|lia]. destruct (Z.ltb_spec p' (2 ^ L')); [|lia]. cbn [andb] in H.
      destruct (m <? lev L' p'); [|exact H].
      pose proof (lev_range L p ltac:(lia) Hp) as LR. pose proof (lev_range L' p' ltac:(lia) R) as LR'. set (l := lev L' p') in *.
      assert (LP : 1 <= l). { destruct (Z.eq_dec l 0) as [E0|]; [|lia]. rewrite <- EL in E0. apply lev_zero in E0; lia. }
      assert (WE : 2 ^ (L - l) * 2 ^ L' = 2 ^ (L' - l) * 2 ^ L) by (rewrite <- !Z.pow_add_r by lia; f_equal; lia).
      pose proof (proj1 (lev_mod L p l ltac:(lia) Hp) EL) as MD.
      assert (Hw : 0 < 2 ^ (L - l)) by (apply pow2_pos; lia).
      assert (PE : 2 ^ L = 2 ^ (l - 1) * (2 * 2 ^ (L - l))) by (rewrite <- (Z.pow_succ_r 2 (L - l)) by lia; rewrite <- Z.pow_add_r by lia; f_equal; lia).
      pose proof (Z.div_mod p (2 * 2 ^ (L - l)) ltac:(lia)) as DM. rewrite MD in DM. pose proof (Z.div_pos p (2 * 2 ^ (L - l)) ltac:(lia) ltac:(lia)) as Q0. set (q := p / (2 * 2 ^ (L - l))) in *. clearbody q.
      assert (P2 : 2 ^ (L - (l - 1)) = 2 * 2 ^ (L - l)) by (rewrite <- Z.pow_succ_r by lia; f_equal; lia).
      assert (RW : 0 <= p - 2 ^ (L - l) /\ p + 2 ^ (L - l) <= 2 ^ L).
      { set (w := 2 ^ (L - l)) in *. clearbody w. set (M := 2 ^ (l - 1)) in *. clearbody M. clear - Hw PE DM Q0 H1 Hp. split; [nia|]. assert (q < M) by nia. nia. }
      assert (LV : forall x k, 0 <= x <= 2 ^ L -> x = 2 ^ (L - (l - 1)) * k -> lev L x <= l - 1) by (intros; apply (lev_mult L 0 ltac:(lia) x (l - 1) k); auto; lia).
      assert (A1 : padded b L g (p - 2 ^ (L - l)) = padded b L' g' (p' - 2 ^ (L' - l))).
      { apply (IH (Z.to_nat (l - 1))); [lia|lia|rewrite !Z.mul_sub_distr_r, WE, E; reflexivity|]. rewrite Z2Nat.id by lia. apply (LV _ q); [lia|]. rewrite P2. lia. }
      assert (A2 : padded b L g (p + 2 ^ (L - l)) = padded b L' g' (p' + 2 ^ (L' - l))).
      { apply (IH (Z.to_nat (l - 1))); [lia|lia|rewrite !Z.mul_add_distr_r, WE, E; reflexivity|]. rewrite Z2Nat.id by lia. apply (LV _ (q + 1)); [lia|]. rewrite P2. lia. }
      rewrite A1, A2 in H. set (s := (qhalf * (padded b L' g' (p' - 2 ^ (L' - l)) + padded b L' g' (p' + 2 ^ (L' - l))))%Qc) in *.
      transitivity (padded b L g p - s + s)%Qc; [ring|]. rewrite H. ring. }
  intros j j' Hj Hj' E. rewrite <- (padded_point b L g j), <- (padded_point b L' g' j') by auto.
  assert (RP : 0 <= gridPos b j <= 2 ^ L) by (unfold gridPos; destruct (Z.eqb_spec b 0); lia). pose proof (lev_range L (gridPos b j) ltac:(lia) RP) as LR.
  apply (X (Z.to_nat L)); auto. lia.
Qed.

Lemma upd_twice : forall (l : list Z) k i j, upd (upd l k i) k j = upd l k j.
Proof. induction l as [|a l IH]; intros [|k] i j; cbn; auto. now rewrite IH. Qed.

Lemma dimOp_nodal_agree : forall y t u k G H, wfSetup y -> wfTask y t -> wfTask y u -> hatSetup y -> (k < length (yRef y))%nat ->
  agreeAll y t u G H -> agreeAll y t u (dimOp (taskCfg y (sLevel t)) true k G) (dimOp (taskCfg y (sLevel u)) true k H).
Proof.
  intros y t u k G H HY HT HU HH Hk A w w' Hw Hw' SP.
  assert (RT : forall a F z, wfTask y a -> isPoint y a z -> dimOp (taskCfg y (sLevel a)) false k (dimOp (taskCfg y (sLevel a)) true k F) z = F z).
  { intros a F z Ha Hz. apply (dimOp_roundtrip (taskCfg y (sLevel a)) true k F); auto; [now apply taskCfg_wf|destruct Ha as (L & _); cbn [taskCfg hLevels]; lia|]. apply invertible_suitable; auto. now apply hat_invertible. }
  set (N := dimOp (taskCfg y (sLevel t)) true k G) in *. set (M := dimOp (taskCfg y (sLevel u)) true k H) in *.
  destruct (nth k (yDims y) false) eqn:D.
  2:{ unfold N, M, dimOp, active. cbn [taskCfg hDims]. rewrite D. cbn [andb]. now apply A. }
  pose proof HY as (_ & LB & _ & _ & HK & _). destruct (HK k Hk) as (A1 & A2 & A3 & A4). pose proof HT as (_ & L2 & _). specialize (L2 k Hk). pose proof HU as (_ & L2' & _). specialize (L2' k Hk).
  pose proof (proj1 (isPoint_nth y t w HY HT) Hw) as [LW Pw]. pose proof (proj1 (isPoint_nth y u w' HY HU) Hw') as [LW' Pw']. specialize (Pw k Hk). specialize (Pw' k Hk).
  assert (X : agree1 (nth k (yBnds y) 0) (nth k (sLevel t) 0) (nth k (sLevel u) 0) (fun i => N (upd w k i)) (fun i => M (upd w' k i))).
  { apply (hatSurplus_inv _ _ _ (nth k (effectiveLmin y) 0)); auto; try lia. intros j j' Hj Hj' E.
    pose proof (isPoint_upd y t w k j HY HT Hw Hk Hj) as P1. pose proof (isPoint_upd y u w' k j' HY HU Hw' Hk Hj') as P2.
    pose proof (dimOp_hat y t k N (upd w k j) HY HT HH Hk P1) as E1. pose proof (dimOp_hat y u k M (upd w' k j') HY HU HH Hk P2) as E2. rewrite D in E1, E2.
    rewrite !upd_nth', Nat.eqb_refl in E1 by lia. rewrite !upd_nth', Nat.eqb_refl in E2 by lia.
    assert (U : forall l i j0, upd (upd l k i) k j0 = upd l k j0) by (intros; apply upd_twice).
    assert (F1 : hatSurplus (nth k (yBnds y) 0) (nth k (sLevel t) 0) (nth k (effectiveLmin y) 0) (fun i => N (upd w k i)) (gridPos (nth k (yBnds y) 0) j) = G (upd w k j)).
    { rewrite <- (RT t G (upd w k j) HT P1). fold N. rewrite E1. unfold hatSurplus, padded. now rewrite !U. }
    assert (F2 : hatSurplus (nth k (yBnds y) 0) (nth k (sLevel u) 0) (nth k (effectiveLmin y) 0) (fun i => M (upd w' k i)) (gridPos (nth k (yBnds y) 0) j') = H (upd w' k j')).
    { rewrite <- (RT u H (upd w' k j') HU P2). fold M. rewrite E2. unfold hatSurplus, padded. now rewrite !U. }
    rewrite F1, F2. apply A; auto. intros n Hn. rewrite !upd_nth' by lia. destruct (Nat.eqb_spec n k) as [->|]; auto. }
  specialize (X (nth k w 0) (nth k w' 0) Pw Pw' (SP k Hk)). cbv beta in X. now rewrite !SparseGridProofs.upd_same in X.
Qed.

Lemma nodal_agree : forall y t u G H, wfSetup y -> wfTask y t -> wfTask y u -> hatSetup y ->
  agreeAll y t u G H -> agreeAll y t u (nodal y (sLevel t) G) (nodal y (sLevel u) H).
Proof.
  intros y t u G H HY HT HU HH A. unfold nodal. assert (K : forall k, In k (dims y) -> (k < length (yRef y))%nat) by (intros k; apply dims_In).
  revert G H A K. induction (dims y) as [|k ks IH]; intros G H A K; auto. cbn [opAll fold_left]. apply IH.
  - apply dimOp_nodal_agree; auto. apply K. now left.
  - intros; apply K; now right.
Qed.
