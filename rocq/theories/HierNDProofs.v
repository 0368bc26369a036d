(** Proofs about HierNDModel.v. *)
From Verif Require Import Base TensorModel TensorProofs PartitionModel PartitionProofs DecompModel DecompProofs DofModel DofProofs Level1dModel
  Level1dProofs SubspaceModel SubspaceProofs Hier1dModel Hier1dProofs DistHierModel DistHierProofs DistExchangeProofs DistPoleProofs HierNDModel.
From Coq Require Import QArith Qcanon.
Open Scope Z_scope.
Ltac Zify.zify_post_hook ::= idtac.

(** ** Splitting a tensor at one dimension *)

Lemma lin_split : forall A s B a x b, length a = length A ->
  lin (A ++ s :: B) (a ++ x :: b) = lin A a + zprod A * (x + s * lin B b).
Proof.
  induction A as [|e A IH]; intros s B [|y a] x b H; simpl in H; try lia.
  - cbn [app lin]. change (zprod []) with 1. ring.
  - cbn [app lin]. rewrite IH by lia. rewrite zprod_cons. ring.
Qed.

Lemma offsets_split : forall A s B acc, nth (length A) (offsetsFrom acc (A ++ s :: B)) 0 = acc * zprod A.
Proof.
  induction A as [|e A IH]; intros s B acc; cbn [app offsetsFrom nth length].
  - change (zprod []) with 1. ring.
  - rewrite IH, zprod_cons. ring.
Qed.

Lemma nth_split_at : forall (A B : list Z) s, nth (length A) (A ++ s :: B) 0 = s.
Proof. intros. rewrite app_nth2, Nat.sub_diag by lia. reflexivity. Qed.

Lemma upd_split : forall (A B : list Z) s y, upd (A ++ s :: B) (length A) y = A ++ y :: B.
Proof. induction A as [|e A IH]; intros; simpl; auto. now rewrite IH. Qed.

Lemma upd_split' : forall (A B : list Z) s y k, length A = k -> upd (A ++ s :: B) k y = A ++ y :: B.
Proof. intros A B s y k <-. apply upd_split. Qed.
Lemma nth_split' : forall (A B : list Z) s k, length A = k -> nth k (A ++ s :: B) 0 = s.
Proof. intros A B s k <-. apply nth_split_at. Qed.
Lemma offsets_split' : forall A s B k, length A = k -> nth k (localOffsets (A ++ s :: B)) 0 = zprod A.
Proof. intros A s B k <-. unfold localOffsets. rewrite offsets_split. ring. Qed.

Lemma split_at : forall (l : list Z) k, (k < length l)%nat -> exists A s B, l = A ++ s :: B /\ length A = k.
Proof.
  intros l k H. exists (firstn k l), (nth k l 0), (skipn (S k) l). split; [|rewrite firstn_length; lia].
  rewrite <- (firstn_skipn k l) at 1. f_equal.
  revert k H. induction l as [|x l IH]; intros [|k] H; simpl in *; try lia; auto. apply IH. lia.
Qed.

Lemma inBox_split : forall A s B v, inBox (A ++ s :: B) v <->
  exists a x b, v = a ++ x :: b /\ inBox A a /\ 0 <= x < s /\ inBox B b.
Proof.
  intros A s B v. unfold inBox. split.
  - intros H. apply Forall2_app_inv_l in H. destruct H as (a & w & Ha & Hw & ->). inv Hw. eauto 10.
  - intros (a & x & b & -> & Ha & Hx & Hb). apply Forall2_app; auto.
Qed.

Lemma zprod_split : forall A s B, zprod (A ++ s :: B) = zprod A * (s * zprod B).
Proof. intros. rewrite zprod_app, zprod_cons. reflexivity. Qed.

Lemma zprod_posExt : forall A, posExt A -> 0 < zprod A.
Proof. induction A; intros H; [reflexivity|]. inv H. rewrite zprod_cons. specialize (IHA H3). nia. Qed.

Lemma posExt_split : forall A s B, posExt (A ++ s :: B) <-> posExt A /\ 0 < s /\ posExt B.
Proof. intros. unfold posExt. rewrite Forall_app, Forall_cons_iff. tauto. Qed.

Lemma vadd_split : forall la a l0 x lb b, length a = length la ->
  vadd (la ++ l0 :: lb) (a ++ x :: b) = vadd la a ++ (l0 + x) :: vadd lb b.
Proof. induction la as [|y la IH]; intros [|z a] l0 x lb b H; simpl in *; try lia; auto. rewrite IH; auto. Qed.

(** ** The poles of a local grid *)

Definition isPole (A : list Z) (s : Z) (B : list Z) (p : Z * Z) : Prop :=
  exists nl nh, 0 <= nl < zprod A /\ 0 <= nh < zprod B /\ p = (nl + nh * zprod A, nh * (zprod A * s) + nl).

Lemma poles_spec : forall A s B, posExt (A ++ s :: B) ->
  (forall p, In p (polesWithBoundary (A ++ s :: B) (length A)) <-> isPole A s B p) /\
  (forall p, In p (polesNoBoundary (A ++ s :: B) (length A)) <-> isPole A s B p) /\
  NoDup (polesWithBoundary (A ++ s :: B) (length A)) /\ NoDup (polesNoBoundary (A ++ s :: B) (length A)).
Proof.
  intros A s B HP. apply posExt_split in HP. destruct HP as (PA & Ps & PB).
  pose proof (zprod_posExt A PA) as ZA. pose proof (zprod_posExt B PB) as ZB.
  assert (NE : A ++ s :: B <> []) by (destruct A; discriminate).
  unfold polesWithBoundary, polesNoBoundary. unfold localOffsets. rewrite offsets_split, nth_split_at, tensorSize_prod, zprod_split by auto.
  rewrite Z.mul_1_l.
  replace (zprod A * (s * zprod B) / (zprod A * s)) with (zprod B).
  2: { symmetry. replace (zprod A * (s * zprod B)) with (zprod B * (zprod A * s)) by ring. apply Z.div_mul. nia. }
  replace (zprod A * (s * zprod B) / s) with (zprod A * zprod B).
  2: { symmetry. replace (zprod A * (s * zprod B)) with (zprod A * zprod B * s) by ring. apply Z.div_mul. lia. }
  split; [|split; [|split]].
  - intros p. rewrite in_flat_map. unfold isPole. split.
    + intros (nh & Hh & H). apply in_map_iff in H. destruct H as (nl & <- & Hl). apply zrange_In in Hh, Hl. exists nl, nh. auto.
    + intros (nl & nh & Hl & Hh & ->). exists nh. split; [now apply zrange_In|]. apply in_map_iff. exists nl. split; auto.
      now apply zrange_In.
  - intros p. rewrite in_map_iff. unfold isPole. split.
    + intros (nn & <- & H). apply zrange_In in H.
      rewrite Z.quot_div_nonneg, Z.rem_mod_nonneg by lia.
      pose proof (Z.mod_pos_bound nn (zprod A) ZA). pose proof (Z.div_mod nn (zprod A) ltac:(lia)) as D.
      exists (nn mod zprod A), (nn / zprod A). split; auto. split.
      * split; [apply Z.div_pos; lia|]. apply Z.div_lt_upper_bound; lia.
      * f_equal; lia.
    + intros (nl & nh & Hl & Hh & ->). exists (nl + nh * zprod A).
      assert (E1 : (nl + nh * zprod A) / zprod A = nh) by (rewrite Z.div_add, Z.div_small by lia; lia).
      assert (E2 : (nl + nh * zprod A) mod zprod A = nl) by (rewrite Z.mod_add, Z.mod_small by lia; lia).
      rewrite Z.quot_div_nonneg, Z.rem_mod_nonneg, E1, E2 by nia. split; auto. apply zrange_In. nia.
  - apply NoDup_flat_map; [apply zrange_NoDup| |].
    + intros nh _. apply NoDup_map_inj; [apply zrange_NoDup|]. intros x y _ _ E. inv E. lia.
    + intros h1 h2 p _ _ H1 H2. apply in_map_iff in H1, H2. destruct H1 as (l1 & <- & R1), H2 as (l2 & E & R2).
      apply zrange_In in R1, R2. inv E. assert (h1 * zprod A - h2 * zprod A = l2 - l1) by lia. nia.
  - apply NoDup_map_inj; [apply zrange_NoDup|]. intros x y _ _ E. now inv E.
Qed.

(** A location belongs to one pole only. *)
Definition onPole (A : list Z) (s : Z) (p : Z * Z) (l : Z) : Prop := exists i, 0 <= i < s /\ l = snd p + zprod A * i.

Lemma divmod_unique : forall w q1 q2 r1 r2, 0 <= r1 < w -> 0 <= r2 < w -> r1 + w * q1 = r2 + w * q2 -> q1 = q2 /\ r1 = r2.
Proof. intros w q1 q2 r1 r2 H1 H2 E. assert (q1 = q2) by nia. subst. split; auto. lia. Qed.

Lemma pole_disjoint : forall A s B p p' l, isPole A s B p -> isPole A s B p' -> onPole A s p l -> onPole A s p' l -> p = p'.
Proof.
  intros A s B p p' l (nl & nh & H1 & H2 & ->) (nl' & nh' & H1' & H2' & ->) (i & Hi & E) (i' & Hi' & E'). cbn [snd] in *.
  assert (X : nl + zprod A * (i + s * nh) = nl' + zprod A * (i' + s * nh')) by lia.
  apply divmod_unique in X; auto. destruct X as [X ->]. apply divmod_unique in X; auto. destruct X as [-> ->]. reflexivity.
Qed.

Lemma fold_poles : forall (step : Z * Z -> arr -> arr) (loc : Z * Z -> Z -> Prop) (V : Z -> Qc) ps p ld0,
  NoDup ps -> (forall p ld l, In p ps -> ~ loc p l -> step p ld l = ld l) ->
  (forall p' l, In p' ps -> loc p l -> loc p' l -> p' = p) ->
  (forall ld, (forall l, loc p l -> ld l = ld0 l) -> forall l, loc p l -> step p ld l = V l) ->
  In p ps -> forall l, loc p l -> fold_left (fun ld p => step p ld) ps ld0 l = V l.
Proof.
  intros step loc V ps p. induction ps as [|p1 ps IH]; intros ld0 ND U Dj St Hp l Hl; [destruct Hp|].
  cbn [fold_left]. inv ND. destruct Hp as [-> | Hp].
  - (* later poles do not touch it *)
    assert (K : forall ps' ld, (forall p', In p' ps' -> In p' ps) -> fold_left (fun ld p => step p ld) ps' ld l = ld l).
    { induction ps' as [|p2 ps' IH2]; intros ld Hs; auto. cbn [fold_left]. rewrite IH2 by (intros; apply Hs; now right).
      apply U; [right; apply Hs; now left|]. intros L2. assert (p2 = p) by (apply (Dj p2 l); auto; right; apply Hs; now left).
      subst. apply H1. apply Hs. now left. }
    rewrite K by auto. apply St; auto.
  - apply IH; auto.
    + intros p' ld l' Hp' N. apply U; auto. now right.
    + intros p' l' Hp'. apply Dj. now right.
    + intros ld Hld l' Hl'. apply St; auto. intros l2 Hl2. rewrite Hld by auto. apply U; [now left|].
      intros L2. assert (p1 = p) by (apply (Dj p1 l2); auto; now left). subst. auto.
Qed.

(** ** Grid data and one dimension *)

Definition represents (c : HCfg) (G : list Z -> Qc) (data : Z -> arr) : Prop :=
  forall r v, 0 <= r < zprod (hProcs c) -> inBox (hLocalSizes c r) v ->
    data r (sequentialIndex (hLocalSizes c r) v) = G (vadd (hLower c r) v).

Definition wfCfg (c : HCfg) : Prop :=
  let d := length (hLevels c) in
  (0 < d)%nat /\ length (hBnds c) = d /\ length (hLmin c) = d /\
  validDec (hProcs c) (hSizes c) (hDecs c) /\
  forall k, (k < d)%nat -> 0 <= nth k (hLevels c) 0 <= 28 /\ 0 <= nth k (hBnds c) 0 <= 2 /\ 0 <= nth k (hLmin c) 0 /\
    (nth k (hBnds c) 0 = 0 -> nth k (hLmin c) 0 = 0).

(** The operation on the poles of the whole grid. *)
Definition poleOp (f : basis) (dehier : bool) (b L lmin n : Z) (g : arr) : arr :=
  match (if dehier then dehierPole else hierPole) f b L lmin n 0 n (fun _ => 0%Qc) [] g with Some u => u | None => g end.

Definition active (c : HCfg) (k : nat) : bool := nth k (hDims c) false && (nth k (hLmin c) 0 <? nth k (hLevels c) 0).

Definition dimOp (c : HCfg) (dehier : bool) (k : nat) (G : list Z -> Qc) : list Z -> Qc := fun v =>
  if active c k
  then poleOp (nth k (hBases c) Hat) dehier (nth k (hBnds c) 0) (nth k (hLevels c) 0) (nth k (hLmin c) 0) (nth k (hSizes c) 0)
              (fun i => G (upd v k i)) (nth k v 0)
  else G v.

Lemma isHat_spec : forall f, isHat f = true <-> f = Hat.
Proof. intros []; simpl; split; congruence. Qed.

Lemma vsub_nth : forall a b i, length a = length b -> nth i (vsub a b) 0 = nth i a 0 - nth i b 0.
Proof. induction a as [|x a IH]; intros [|y b'] [|i] H; simpl in *; try lia. apply IH. lia. Qed.

Section Cfg.
Variable c : HCfg.
Hypothesis HW : wfCfg c.

Notation d := (length (hLevels c)).
Notation procs := (hProcs c).

Lemma sizes_length : length (hSizes c) = d.
Proof. destruct HW as (_ & H & _). unfold hSizes, globalSizes. rewrite map2_length; lia. Qed.

Lemma lens : length procs = d /\ length (hDecs c) = d.
Proof. destruct HW as (_ & _ & _ & (V1 & V2 & _) & _). rewrite sizes_length in V2. lia. Qed.

Lemma dec_valid : forall j, (j < d)%nat ->
  nth j procs 0 = Z.of_nat (length (nth j (hDecs c) [])) /\ validDec1 (nth j (hDecs c) []) (nth j (hSizes c) 0).
Proof. intros j Hj. destruct HW as (_ & _ & _ & (_ & _ & V) & _). apply V. destruct lens. lia. Qed.

Lemma coords_len : forall r, 0 <= r < zprod procs -> length (coordsOfRank procs r) = d /\ inBox procs (coordsOfRank procs r).
Proof.
  intros r Hr. destruct HW as (_ & _ & _ & V & _). pose proof (coordsOfRank_inBox procs r (validDec_pos _ _ _ V) Hr) as I.
  split; auto. apply inBox_length in I. destruct lens. lia.
Qed.

Lemma bounds : forall r j, 0 <= r < zprod procs -> (j < d)%nat ->
  nth j (hLower c r) 0 = lo1 (nth j (hDecs c) []) (nth j (coordsOfRank procs r) 0) /\
  nth j (hUpper c r) 0 = up1 (nth j (hDecs c) []) (nth j (hSizes c) 0) (nth j (coordsOfRank procs r) 0).
Proof.
  intros r j Hr Hj. destruct HW as (_ & _ & _ & V & _). pose proof (validDec_shape _ _ _ V) as S. destruct lens as [LP _].
  split; [eapply lowerBounds_nth; eauto; lia|eapply upperBounds_nth; eauto; lia].
Qed.

Lemma lower_len : forall r, 0 <= r < zprod procs -> length (hLower c r) = d /\ length (hUpper c r) = d /\ length (hLocalSizes c r) = d.
Proof.
  intros r Hr. destruct HW as (_ & _ & _ & V & _). pose proof (validDec_shape _ _ _ V) as S. destruct lens as [LP _].
  assert (E1 : length (hLower c r) = d) by (unfold hLower; erewrite lowerBounds_length; eauto).
  assert (E2 : length (hUpper c r) = d) by (unfold hUpper; rewrite upperBounds_length; auto).
  split; [auto|split; [auto|]]. unfold hLocalSizes. rewrite vsub_length; lia.
Qed.

Lemma localSizes_nth : forall r j, 0 <= r < zprod procs -> (j < d)%nat ->
  nth j (hLocalSizes c r) 0 = nth j (hUpper c r) 0 - nth j (hLower c r) 0.
Proof. intros r j Hr Hj. destruct (lower_len r Hr) as (A & B & _). apply vsub_nth. lia. Qed.

Lemma localSizes_pos : forall r, 0 <= r < zprod procs -> posExt (hLocalSizes c r).
Proof.
  intros r Hr. apply Forall_forall. intros x Hx. apply (In_nth _ _ 0) in Hx. destruct Hx as (j & Hj & <-).
  destruct (lower_len r Hr) as (_ & _ & E). rewrite localSizes_nth by (auto; lia).
  destruct (bounds r j Hr ltac:(lia)) as [-> ->]. destruct (dec_valid j ltac:(lia)) as [EP V].
  destruct (coords_len r Hr) as [_ CI]. apply inBox_nth in CI. destruct CI as [CL CI].
  pose proof (validDec1_range _ _ (nth j (coordsOfRank procs r) 0) V). destruct lens. specialize (CI j ltac:(lia)). lia.
Qed.
End Cfg.

Section Step.
Variables (c : HCfg) (k : nat).
Hypothesis HW : wfCfg c.
Hypothesis Hk : (k < length (hLevels c))%nat.

Notation d := (length (hLevels c)).
Notation procs := (hProcs c).
Notation dec1 := (nth k (hDecs c) []).
Notation n := (nth k (hSizes c) 0).
Notation L := (nth k (hLevels c) 0).
Notation b := (nth k (hBnds c) 0).


Lemma n_formula : n = 2 ^ L + b - 1.
Proof.
  destruct (dec_valid c HW k Hk) as [_ V]. pose proof (validDec1_nonempty _ _ V) as [Hl _].
  destruct V as (_ & _ & V). specialize (V 0%nat Hl). pose proof (validDec1_nonempty _ _ (proj2 (dec_valid c HW k Hk))) as [_ E].
  rewrite E in V. destruct (id HW) as (_ & H & _ & _ & HP). destruct (HP k Hk) as (HL & Hb & _).
  revert V. unfold hSizes, globalSizes. rewrite (map2_nth _ _ _ _ _ _ k 0 0 0) by lia.
  destruct (numDofNodal1 L b) eqn:E1; [|lia]. intros _. apply numDofNodal1_formula; auto; lia.
Qed.

Lemma poleRank_range : forall r p, 0 <= r < zprod procs -> 0 <= p < Z.of_nat (length dec1) ->
  0 <= poleRank c k r p < zprod procs /\
  coordsOfRank procs (poleRank c k r p) = upd (coordsOfRank procs r) k p.
Proof.
  intros r p Hr Hp. destruct (coords_len c HW r Hr) as [CL CI]. destruct (lens c HW) as [LP LD].
  assert (I : inBox procs (upd (coordsOfRank procs r) k p)).
  { apply inBox_nth. rewrite upd_length. split; [lia|]. intros i Hi. apply inBox_nth in CI. destruct CI as [_ CI].
    destruct (Nat.eq_dec i k) as [->|N].
    - rewrite nth_upd_same by lia. destruct (dec_valid c HW k Hk) as [E _]. lia.
    - rewrite nth_upd_other by auto. apply CI. lia. }
  split; [now apply rank_range|]. unfold poleRank. now apply coords_rank.
Qed.

(** Ranks on the same pole differ in dimension [k] only. *)
Lemma pole_neighbour : forall r p, 0 <= r < zprod procs -> 0 <= p < Z.of_nat (length dec1) ->
  hLower c (poleRank c k r p) = upd (hLower c r) k (lo1 dec1 p) /\
  hLocalSizes c (poleRank c k r p) = upd (hLocalSizes c r) k (up1 dec1 n p - lo1 dec1 p).
Proof.
  intros r p Hr Hp. destruct (poleRank_range r p Hr Hp) as [Hs Cs]. set (s := poleRank c k r p) in *.
  destruct (coords_len c HW r Hr) as [CL _].
  destruct (lower_len c HW r Hr) as (L1 & U1 & S1). destruct (lower_len c HW s Hs) as (L2 & U2 & S2).
  assert (B : forall j, (j < d)%nat -> j <> k -> nth j (hLower c s) 0 = nth j (hLower c r) 0 /\ nth j (hUpper c s) 0 = nth j (hUpper c r) 0).
  { intros j Hj N. destruct (bounds c HW r j Hr Hj) as [-> ->]. destruct (bounds c HW s j Hs Hj) as [-> ->].
    rewrite Cs, nth_upd_other by auto. auto. }
  assert (BK : nth k (hLower c s) 0 = lo1 dec1 p /\ nth k (hUpper c s) 0 = up1 dec1 n p).
  { destruct (bounds c HW s k Hs Hk) as [-> ->]. rewrite Cs, nth_upd_same by lia. auto. }
  split; apply nth_ext_Z; try (rewrite upd_length; lia); intros j Hj; (destruct (Nat.eq_dec j k) as [->|N];
    [rewrite nth_upd_same by lia|rewrite nth_upd_other by auto]).
  - apply BK.
  - apply B; auto; lia.
  - rewrite (localSizes_nth c HW) by (auto; lia). destruct BK as [-> ->]. auto.
  - rewrite !(localSizes_nth c HW) by (auto; lia). destruct (B j ltac:(lia) N) as [-> ->]. auto.
Qed.

Lemma writePole_other : forall r st res ld l, ~ (exists i, 0 <= i < nth k (hLocalSizes c r) 0 /\ l = st + nth k (localOffsets (hLocalSizes c r)) 0 * i) ->
  writePole c k r st res ld l = ld l.
Proof.
  intros r st res ld l N. unfold writePole.
  assert (G : forall is ld, (forall i, In i is -> 0 <= i < nth k (hLocalSizes c r) 0) ->
     fold_left (fun ld i => setA ld (st + nth k (localOffsets (hLocalSizes c r)) 0 * i) (res (nth k (hLower c r) 0 + i))) is ld l = ld l).
  { induction is as [|i is IH]; intros ld' H; auto. cbn [fold_left]. rewrite IH by (intros; apply H; now right).
    apply setA_other. intros ->. apply N. exists i. split; auto. apply H. now left. }
  apply G. intros i Hi. now apply zrange_In.
Qed.

Lemma writePole_at : forall r st res ld i, 0 < nth k (localOffsets (hLocalSizes c r)) 0 -> 0 <= i < nth k (hLocalSizes c r) 0 ->
  writePole c k r st res ld (st + nth k (localOffsets (hLocalSizes c r)) 0 * i) = res (nth k (hLower c r) 0 + i).
Proof.
  intros r st res ld i Ho Hi. unfold writePole. set (o := nth k (localOffsets (hLocalSizes c r)) 0) in *.
  assert (G : forall is ld, In i is -> NoDup is ->
     fold_left (fun ld i => setA ld (st + o * i) (res (nth k (hLower c r) 0 + i))) is ld (st + o * i) = res (nth k (hLower c r) 0 + i)).
  { assert (G0 : forall is ld, ~ In i is ->
       fold_left (fun ld i => setA ld (st + o * i) (res (nth k (hLower c r) 0 + i))) is ld (st + o * i) = ld (st + o * i)).
    { induction is as [|j is IH]; intros ld' H; auto. cbn [fold_left]. rewrite IH by (intros X; apply H; now right).
      apply setA_other. intros E. apply H. left. nia. }
    induction is as [|j is IH]; intros ld' H ND; [destruct H|]. inv ND. cbn [fold_left]. destruct H as [-> | H].
    - rewrite G0 by auto. apply setA_same.
    - now apply IH. }
  apply G; [now apply zrange_In|apply zrange_NoDup].
Qed.

(** One dimension: the parts keep representing one grid function. *)
Lemma sweep_represents : forall dehier stale G data data', represents c G data ->
  sweepDim c dehier k stale data = Some data' -> represents c (dimOp c dehier k G) data'.
Proof.
  intros dehier stale G data data' HG E. unfold sweepDim in E. unfold dimOp, active.
  destruct (nth k (hDims c) false); cbn [negb andb] in *; [|inv E; exact HG].
  rewrite Z.geb_leb in E. rewrite Z.ltb_antisym. destruct (Z.leb_spec L (nth k (hLmin c) 0)) as [H|H]; cbn [negb]; [inv E; exact HG|].
  destruct ((b >? 0) || isHat (nth k (hBases c) Hat))%bool eqn:SUP; [|discriminate]. inv E.
  intros r v Hr Hv.
  destruct (id HW) as (Hd & _ & _ & _ & HP). destruct (HP k Hk) as (HL & Hb & Hm & HB0). clear HP.
  destruct (dec_valid c HW k Hk) as [EP HV]. pose proof n_formula as Hn.
  destruct (lower_len c HW r Hr) as (LL & LU & LS). pose proof (localSizes_pos c HW r Hr) as PE.
  destruct (coords_len c HW r Hr) as [CL CI]. pose proof CI as CIn. apply inBox_nth in CIn. destruct CIn as [_ CIn].
  destruct (lens c HW) as [LP _].
  assert (Hq : 0 <= nth k (coordsOfRank procs r) 0 < Z.of_nat (length dec1)) by (rewrite <- EP; apply CIn; lia).
  pose proof (pole_neighbour r) as PN.
  destruct (split_at (hLocalSizes c r) k ltac:(lia)) as (A & s & B & ES & LA).
  destruct (split_at (hLower c r) k ltac:(lia)) as (la & l0 & lb & EL & Lla).
  destruct (bounds c HW r k Hr Hk) as [BL BU]. pose proof (localSizes_nth c HW r k Hr Hk) as SN. rewrite BL, BU in SN.
  assert (E0 : nth k (hLower c r) 0 = l0) by (rewrite EL; now apply nth_split').
  assert (E0s : nth k (hLocalSizes c r) 0 = s) by (rewrite ES; now apply nth_split').
  assert (EO : nth k (localOffsets (hLocalSizes c r)) 0 = zprod A).
  { rewrite ES. now apply offsets_split'. }
  rewrite ES in PE. destruct (poles_spec A s B PE) as (P1 & P2 & N1 & N2).
  pose proof (proj1 (posExt_split A s B) PE) as (PA & Ps & PB). pose proof (zprod_posExt A PA) as ZA.
  pose proof Hv as Hv'. rewrite ES in Hv'. apply inBox_split in Hv'. destruct Hv' as (a & x & bb & EV & Ha & Hx & Hbb).
  pose proof (inBox_length _ _ Ha) as LAa.
  pose proof (lin_range A a Ha) as RA. pose proof (lin_range B bb Hbb) as RB.
  set (pole := (lin A a + lin B bb * zprod A, lin B bb * (zprod A * s) + lin A a)).
  assert (Hpole : isPole A s B pole) by (exists (lin A a), (lin B bb); auto).
  set (g := fun i => G (upd (vadd (hLower c r) v) k i)).
  assert (VA : vadd (hLower c r) v = vadd la a ++ (l0 + x) :: vadd lb bb) by (rewrite EL, EV; apply vadd_split; lia).
  assert (LV : length (vadd la a) = k) by (rewrite vadd_length; lia).
  assert (EG : forall i, g i = G (vadd la a ++ i :: vadd lb bb)).
  { intros i. unfold g. rewrite VA. now rewrite upd_split'. }
  assert (SQ : sequentialIndex (hLocalSizes c r) v = snd pole + zprod A * x).
  { rewrite sequentialIndex_lin, ES, EV, lin_split by lia. unfold pole. cbn [snd]. ring. }
  unfold sweepRank. rewrite SQ.
  set (f := nth k (hBases c) Hat) in *.
  set (step := fun (pole : Z * Z) (ld : arr) =>
      match distPole f dehier b L (nth k (hLmin c) 0) dec1 n (nth k (coordsOfRank procs r) 0) (stale r (fst pole))
                     (poleValues c k data ld r pole) with
      | Some res => writePole c k r (snd pole) res ld
      | None => ld
      end).
  set (V := fun l => poleOp f dehier b L (nth k (hLmin c) 0) n g (l0 + (l - snd pole) / zprod A)).
  assert (EVx : V (snd pole + zprod A * x) = poleOp f dehier b L (nth k (hLmin c) 0) n g (nth k (vadd (hLower c r) v) 0)).
  { unfold V. f_equal. rewrite VA. rewrite nth_split' by auto. replace (snd pole + zprod A * x - snd pole) with (x * zprod A) by ring.
    rewrite Z.div_mul by lia. reflexivity. }
  fold g. rewrite <- EVx.
  assert (U : forall p ld l, ~ onPole A s p l -> step p ld l = ld l).
  { intros p ld l N. unfold step. destruct (distPole _ _ _ _ _ _ _ _ _ _) as [res|]; auto. apply writePole_other.
    intros (i & Hi & El). apply N. exists i. rewrite E0s in Hi. rewrite EO in El. auto. }
  assert (ST : forall ld, (forall l, onPole A s pole l -> ld l = data r l) -> forall l, onPole A s pole l -> step pole ld l = V l).
  { intros ld Hld l (i & Hi & El). unfold step.
    pose proof (distPole_serial b L (nth k (hLmin c) 0) n dec1 Hb ltac:(lia) ltac:(lia) Hn HV g (poleValues c k data ld r pole)) as D.
    assert (LC : forall p, 0 <= p < Z.of_nat (length dec1) -> forall i, firstIdx dec1 p <= i <= lastIdx dec1 n p ->
       poleValues c k data ld r pole p i = g i).
    { intros p Hp j Hj. change (firstIdx dec1 p) with (lo1 dec1 p) in Hj.
      assert (Hj' : lo1 dec1 p <= j < up1 dec1 n p) by (unfold lastIdx in Hj; unfold up1; lia). clear Hj.
      unfold poleValues. destruct (Z.eqb_spec p (nth k (coordsOfRank procs r) 0)) as [Ep|Ep].
      - rewrite Hld; rewrite EO, E0.
        + replace (snd pole + zprod A * (j - l0)) with (sequentialIndex (hLocalSizes c r) (a ++ (j - l0) :: bb)).
          * rewrite HG; auto.
            -- rewrite EL, vadd_split by lia. rewrite EG. f_equal. f_equal. f_equal. ring.
            -- rewrite ES. apply inBox_split. exists a, (j - l0), bb. repeat split; auto; subst p; lia.
          * rewrite sequentialIndex_lin, ES, lin_split by lia. unfold pole. cbn [snd]. ring.
        + exists (j - l0). split; auto. subst p. lia.
      - cbv zeta. destruct (PN p Hr Hp) as [NL NS]. destruct (poleRank_range r p Hr Hp) as [Hs _].
        set (q := poleRank c k r p) in *. rewrite ES, (upd_split' A B s _ k LA) in NS.
        rewrite EL, (upd_split' la lb l0 _ k Lla) in NL.
        set (s' := up1 dec1 n p - lo1 dec1 p) in *.
        assert (Eq0 : nth k (hLower c q) 0 = lo1 dec1 p) by (rewrite NL; now apply nth_split'). rewrite Eq0.
        unfold sliceElement. rewrite NS, (offsets_split' A s' B k LA), (upd_split' A B s' _ k LA).
        assert (Hw : inBox (A ++ 1 :: B) (a ++ 0 :: bb)) by (apply inBox_split; exists a, 0, bb; repeat split; auto; lia).
        assert (Ew : fst pole = lin (A ++ 1 :: B) (a ++ 0 :: bb)) by (rewrite lin_split by lia; unfold pole; cbn [fst]; ring).
        rewrite Ew, getVectorIndex_unlin, unlin_lin; auto;
          [|apply (inBox_pos _ _ Hw)|now apply lin_range].
        replace (sequentialIndex (A ++ s' :: B) (a ++ 0 :: bb) + (j - lo1 dec1 p) * zprod A)
          with (sequentialIndex (hLocalSizes c q) (a ++ (j - lo1 dec1 p) :: bb)).
        + rewrite HG; auto.
          * rewrite NL, vadd_split by lia. rewrite EG. f_equal. f_equal. f_equal. ring.
          * rewrite NS. apply inBox_split. exists a, (j - lo1 dec1 p), bb. repeat split; auto; unfold s'; lia.
        + rewrite NS, !sequentialIndex_lin, !lin_split by lia. ring. }
    specialize (D LC f dehier (nth k (coordsOfRank procs r) 0) (stale r (fst pole)) (fun _ => 0%Qc) Hq HB0).
    unfold V, poleOp.
    assert (SS : exists w, (if dehier then dehierPole else hierPole) f b L (nth k (hLmin c) 0) n 0 n (fun _ => 0%Qc) [] g = Some w).
    { unfold dehierPole, hierPole. apply orb_true_iff in SUP.
      assert (nth k (hLmin c) 0 >=? L = false) as EL0 by (rewrite Z.geb_leb; apply Z.leb_gt; lia).
      assert (SF : b >? 0 = true \/ f = Hat) by (destruct SUP; [auto|right; now apply isHat_spec]).
      destruct dehier; rewrite EL0; destruct SF as [-> | SF]; eauto; rewrite SF; destruct (b >? 0); eauto. }
    destruct SS as [w SS]. rewrite SS in *. destruct (distPole _ _ _ _ _ _ _ _ _ _) as [u|]; [|tauto].
    rewrite El. rewrite <- EO. rewrite writePole_at by (try rewrite EO; try rewrite E0s; lia). rewrite E0, EO.
    replace (snd pole + zprod A * i - snd pole) with (i * zprod A) by ring. rewrite Z.div_mul by lia. apply D.
    change (firstIdx dec1 (nth k (coordsOfRank procs r) 0)) with (lo1 dec1 (nth k (coordsOfRank procs r) 0)).
    change (lastIdx dec1 n (nth k (coordsOfRank procs r) 0)) with (up1 dec1 n (nth k (coordsOfRank procs r) 0) - 1). lia. }
  rewrite ES. rewrite <- LA at 2.
  assert (DJ : forall p' l, isPole A s B p' -> onPole A s pole l -> onPole A s p' l -> p' = pole).
  { intros p' l H1 H2 H3. eapply pole_disjoint; eauto. }
  assert (OP : onPole A s pole (snd pole + zprod A * x)) by (exists x; auto).
  destruct (b >? 0).
  - apply (fold_poles step (onPole A s) V _ pole (data r)); auto; [intros p' l H1; apply DJ; now apply P1|now apply P1].
  - apply (fold_poles step (onPole A s) V _ pole (data r)); auto; [intros p' l H1; apply DJ; now apply P2|now apply P2].
Qed.
End Step.
