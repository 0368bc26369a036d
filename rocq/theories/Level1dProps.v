(** C05: level of a 1d point and its hierarchical predecessors. *)
From Verif Require Import Base Level1dModel Level1dProofs PartitionProofs DecompModel DecompProofs.

(** The point with index [idx] sits at coordinate [gridPos b idx / 2^L]. The grid of level [l] consists of the multiples
    of [2^-l]; so the point lies on it iff [2^(L-l)] divides [gridPos b idx]. The reported level is the least such. *)
Theorem C05_level_is_coarsest : forall b L idx n,
  0 <= b <= 2 -> 0 <= L -> numDofNodal1 L b = Some n -> 0 <= idx < n ->
  0 <= getLevel b L idx <= L /\
  (2 ^ (L - getLevel b L idx) | gridPos b idx) /\
  (forall l, 0 <= l <= L -> (2 ^ (L - l) | gridPos b idx) -> getLevel b L idx <= l).
Proof.
  intros b L idx n Hb HL Hn Hi. apply numDofNodal1_formula in Hn; try lia. subst n.
  rewrite getLevel_lev. pose proof (numDof_range b L idx Hb Hi) as R.
  pose proof (lev_range L _ HL R) as LR. split; auto. split.
  - apply lev_divides; auto; lia.
  - intros l Hl D. apply lev_divides in D; auto.
Qed.

(** Predecessors: at distance [2^(L-l)], on strictly coarser levels, and one of them exactly one level coarser. *)
Theorem C05_predecessors : forall b L idx n l,
  0 <= b <= 2 -> 1 <= L -> numDofNodal1 L b = Some n -> 0 <= idx < n -> l = getLevel b L idx -> 1 <= l ->
  let p := gridPos b idx in let h := 2 ^ (L - l) in
  0 <= p - h /\ p + h <= 2 ^ L /\
  lev L (p - h) < l /\ lev L (p + h) < l /\
  (l = 1 \/ lev L (p - h) = l - 1 \/ lev L (p + h) = l - 1) /\
  getLeftPredecessor b L idx = (if p - h =? 0 then (if b =? 0 then -1 else 0) else idx - h) /\
  getRightPredecessor b L n idx
  = (if p + h =? 2 ^ L then (if b =? 0 then -1 else 2 ^ L) else idx + h).
Proof.
  intros b L idx n l Hb HL Hn Hi El Hl p h. pose proof Hn as Hn'.
  apply numDofNodal1_formula in Hn; try lia. subst n.
  pose proof (numDof_range b L idx Hb Hi) as R.
  assert (LR : 0 <= l <= L) by (subst l; rewrite getLevel_lev; apply lev_range; auto; lia).
  assert (LV : lev L p = l) by (subst l; now rewrite getLevel_lev).
  pose proof (pow2_pos (L - l) ltac:(lia)) as P. fold h in P.
  assert (PL : 2 ^ L = h * 2 ^ l) by (unfold h; rewrite <- Z.pow_add_r by lia; f_equal; lia).
  assert (Pl : 2 ^ l = 2 * 2 ^ (l - 1)) by (replace l with (1 + (l - 1)) at 1 by lia; rewrite Z.pow_add_r by lia; reflexivity).
  pose proof (pow2_pos (l - 1) ltac:(lia)) as Pl1.
  destruct (proj1 (lev_odd L p l ltac:(lia) R) LV) as [m [Hm Em]]. fold h in Em.
  assert (Hm2 : 2 * m + 2 <= 2 ^ l) by nia.
  assert (H0 : 0 <= p - h) by nia. assert (H1 : p + h <= 2 ^ L) by nia.
  assert (D1 : lev L (p - h) <= l - 1).
  { apply lev_divides; try lia. replace (L - (l - 1)) with (1 + (L - l)) by lia. rewrite Z.pow_add_r by lia.
    fold h. exists m. change (2 ^ 1) with 2. rewrite Em. ring. }
  assert (D2 : lev L (p + h) <= l - 1).
  { apply lev_divides; try lia. replace (L - (l - 1)) with (1 + (L - l)) by lia. rewrite Z.pow_add_r by lia.
    fold h. exists (m + 1). change (2 ^ 1) with 2. rewrite Em. ring. }
  split; auto. split; auto. split; [lia|]. split; [lia|]. split; [|split].
  - destruct (Z.eq_dec l 1) as [|Hl1]; auto. right.
    assert (Hh : 2 ^ (L - (l - 1)) = 2 * h).
    { replace (L - (l - 1)) with (1 + (L - l)) by lia. rewrite Z.pow_add_r by lia. reflexivity. }
    assert (m = 2 * (m / 2) + m mod 2) by (apply Z.div_mod; lia).
    assert (0 <= m mod 2 < 2) by (apply Z.mod_pos_bound; lia).
    assert (m mod 2 = 0 \/ m mod 2 = 1) as [E|E] by lia.
    + right. apply lev_odd; try lia. exists (m / 2). rewrite Hh. split; [lia|]. rewrite Em. nia.
    + left. apply lev_odd; try lia. exists (m / 2). rewrite Hh. split; [lia|]. rewrite Em. nia.
  - unfold getLeftPredecessor. rewrite <- El. destruct (Z.eqb_spec l 0); [lia|]. fold h.
    clear Em Hm2 PL Pl. unfold p, gridPos in *. destruct (Z.eqb_spec b 0);
      repeat (match goal with |- context [?x =? ?y] => destruct (Z.eqb_spec x y) end); lia.
  - unfold getRightPredecessor. rewrite <- El. destruct (Z.eqb_spec l 0); [lia|]. fold h.
    clear Em Hm2 PL Pl. unfold p, gridPos in *. destruct (Z.eqb_spec b 0); destruct (Z.eqb_spec b 1); cbn [andb];
      repeat (match goal with |- context [?x =? ?y] => destruct (Z.eqb_spec x y) end);
      repeat (match goal with |- context [?x >? ?y] => destruct (Z.gtb_spec x y) end); lia.
Qed.

(** Boundary points report no predecessors. *)
Theorem C05_boundary_no_predecessor : forall b L idx n,
  getLevel b L idx = 0 -> getLeftPredecessor b L idx = -1 /\ getRightPredecessor b L n idx = -1.
Proof. intros. unfold getLeftPredecessor, getRightPredecessor. rewrite H. auto. Qed.

Example C05_ex : numDofNodal1 3 2 = Some 9 /\ map (getLevel 2 3) (zrange 0 9) = [0; 3; 2; 3; 1; 3; 2; 3; 0] /\
  map (getLevel 0 3) (zrange 0 7) = [3; 2; 3; 1; 3; 2; 3] /\
  map (getLeftPredecessor 2 3) (zrange 0 9) = [-1; 0; 0; 2; 0; 4; 4; 6; -1] /\
  map (getRightPredecessor 1 3 8) (zrange 0 8) = [-1; 2; 4; 4; 8; 6; 8; 8].
Proof. vm_compute. auto. Qed.

Print Assumptions C05_level_is_coarsest.
Print Assumptions C05_predecessors.
Print Assumptions C05_boundary_no_predecessor.
