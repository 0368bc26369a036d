(** Sums of interpolants of samples of one function, over grids whose coefficients sum to one on every subspace. *)
From Verif Require Import Base TensorModel TensorProofs PartitionModel PartitionProofs DecompModel SubspaceModel Hier1dModel HierMassProofs DofModel CombiSchemeModel
  LevelSetsModel SparseGridModel QcTools InterpModel InterpProofs InterpProps.
From Coq Require Import QArith Qcanon.
Open Scope Z_scope.
Ltac Zify.zify_post_hook ::= idtac.

(** ** Telescoping sums *)
Lemma qsum_snoc : forall l x, qsum (l ++ [x]) = (qsum l + x)%Qc.
Proof. induction l as [|a l IH]; intros x; cbn [app]; change (qsum (?a :: ?b)) with (a + qsum b)%Qc; [change (qsum []) with 0%Qc; ring|]. rewrite IH. ring. Qed.
Lemma zrange_snoc : forall a n, a <= n -> zrange a (n + 1) = zrange a n ++ [n].
Proof.
  intros a n H. unfold zrange. replace (Z.to_nat (n + 1 - a)) with (Z.to_nat (n - a) + 1)%nat by lia. generalize (eq_refl n).
  assert (E : n = a + Z.of_nat (Z.to_nat (n - a))) by lia. intros _. set (k := Z.to_nat (n - a)) in *. clearbody k. subst n. clear H. revert a. induction k as [|k IH]; intros a.
  - cbn. f_equal. lia.
  - cbn [Nat.add zseq app]. f_equal. rewrite IH. do 2 f_equal. lia.
Qed.

Definition difference (F : Z -> Qc) (j : Z) : Qc := (F j - (if j =? 1 then 0 else F (j - 1)%Z))%Qc.
Lemma telescope : forall F u l, 1 <= u -> 1 <= l ->
  qsum (map (fun j => if j <=? u then difference F j else 0%Qc) (zrange 1 (l + 1))) = F (Z.min u l).
Proof.
  intros F u l Hu Hl. pattern l. apply Zlt_lower_bound_ind with (z := 1); [|exact Hl]. clear l Hl. intros l IH Hl. rewrite zrange_snoc, map_app by lia. cbn [map]. rewrite qsum_snoc.
  destruct (Z.eq_dec l 1) as [->|NE].
  - change (zrange 1 1) with (@nil Z). cbn [map]. change (qsum []) with 0%Qc. destruct (Z.leb_spec 1 u); [|lia]. unfold difference. change (1 =? 1) with true. cbv iota. replace (Z.min u 1) with 1 by lia. ring.
  - replace l with (l - 1 + 1) at 1 by lia. rewrite IH by lia. unfold difference. destruct (Z.eqb_spec l 1); [lia|]. destruct (Z.leb_spec l u).
    + replace (Z.min u (l - 1)) with (l - 1) by lia. replace (Z.min u l) with l by lia. ring.
    + replace (Z.min u (l - 1)) with (Z.min u l) by lia. ring.
Qed.

Lemma vleb_cons : forall a m b l, vleb (a :: m) (b :: l) = (a <=? b) && vleb m l.
Proof. reflexivity. Qed.

(** If the coefficients of all grids above [m] sum to one for all m <= l, then a quantity that depends on the smaller levels only is the
    one of [l]. *)
Lemma unity_sum : forall (A : Type) (l : list Z) (c : A -> Qc) (lev : A -> list Z) (us : list A) (g : list Z -> Qc), Forall (Z.le 1) l ->
  (forall u, In u us -> length (lev u) = length l /\ Forall (Z.le 1) (lev u)) ->
  (forall m, Forall2 (fun a b => 1 <= a <= b) m l -> qsum (map (fun u => if vleb m (lev u) then c u else 0%Qc) us) = 1%Qc) ->
  qsum (map (fun u => c u * g (map2 Z.min (lev u) l))%Qc us) = g l.
Proof.
  intros A. induction l as [|l0 l IH]; intros c lev us g Hl HL HU.
  - specialize (HU [] ltac:(constructor)).
    transitivity (g [] * qsum (map (fun u => if vleb [] (lev u) then c u else 0%Qc) us))%Qc; [|rewrite HU; ring]. rewrite <- qs_scale. apply qs_ext. intros u Hu. destruct (HL u Hu) as [L _]. destruct (lev u); [|discriminate]. cbn [map2]. change (vleb [] []) with true. cbv iota. ring.
  - inversion Hl as [|? ? H0 Hl']; subst.
    transitivity (qsum (map (fun u => qsum (map (fun j => (if j <=? hd 0%Z (lev u) then c u else 0) * difference (fun i => g (i :: map2 Z.min (tl (lev u)) l)) j)%Qc (zrange 1 (l0 + 1)))) us)).
    { apply qs_ext. intros u Hu. destruct (HL u Hu) as [L F]. destruct (lev u) as [|u0 u']; [discriminate|]. inversion F; subst. cbn [map2 hd tl].
      rewrite <- (telescope (fun i => g (i :: map2 Z.min u' l)) u0 l0) by lia. rewrite <- qs_scale. apply qs_ext. intros j _. destruct (j <=? u0); ring. }
    rewrite qs_swap.
    transitivity (qsum (map (fun j => if j <=? l0 then difference (fun i => g (i :: l)) j else 0%Qc) (zrange 1 (l0 + 1)))).
    { apply qs_ext. intros j Hj. apply zrange_In in Hj. destruct (Z.leb_spec j l0); [|lia].
      rewrite (IH (fun u => if j <=? hd 0%Z (lev u) then c u else 0%Qc) (fun u => tl (lev u)) us (fun m => difference (fun i => g (i :: m)) j)); auto.
      - intros u Hu. destruct (HL u Hu) as [L F]. destruct (lev u); [discriminate|]. inversion F; subst. cbn in *. split; [lia|auto].
      - intros m Hm. rewrite <- (HU (j :: m)); [|constructor; [lia|auto]]. apply qs_ext. intros u Hu. destruct (HL u Hu) as [L F]. destruct (lev u) as [|u0 u']; [discriminate|]. cbn [tl hd]. rewrite vleb_cons.
        destruct (j <=? u0); cbn [andb]; destruct (vleb m u'); reflexivity. }
    rewrite (telescope (fun i => g (i :: l)) l0 l0) by lia. now rewrite Z.min_id.
Qed.

(** ** Interpolants of samples *)
Definition firstPos (b : Z) : Z := if b =? 0 then 1 else 0.
(** The coordinates of the point with index [v] in a grid of level [levels]. *)
Fixpoint pointCoords (bs levels v : list Z) : list Qc :=
  match bs, levels, v with
  | b :: bs', L :: levels', j :: v' => (zq (j + firstPos b) / zq (2 ^ L))%Qc :: pointCoords bs' levels' v'
  | _, _, _ => []
  end.
Definition sampled (levels bs : list Z) (f : list Qc -> Qc) (xs : list Qc) : Qc := interpolant levels bs (fun v => f (pointCoords bs levels v)) xs.

Lemma interpolant_cons : forall L levels b bs F x xs, 1 <= L ->
  interpolant (L :: levels) (b :: bs) F (x :: xs) = qsum (map (fun j => axisWeight b L j x * interpolant levels bs (fun v => F (j :: v)) xs)%Qc (zrange 0 (2 ^ L + b - 1))).
Proof.
  intros L levels b bs F x xs HL. unfold interpolant, boxPoints, globalSizes. cbn [length repeat map2 cart].
  assert (E : match numDofNodal1 L b with Some n => n | None => 0 end = 2 ^ L + b - 1) by (unfold numDofNodal1; destruct (Z.gtb_spec L 0); [reflexivity|lia]). rewrite E.
  rewrite qs_flat_map. apply qs_ext. intros j _. rewrite map_map, <- qs_scale. apply qs_ext. intros v _. cbn [pointWeight]. ring.
Qed.
Lemma axis_collapse : forall b L j x (G : Z -> Qc), 1 <= L -> 0 <= b <= 2 -> 0 <= j < 2 ^ L + b - 1 -> (x * zq (2 ^ L))%Qc = zq (j + firstPos b) ->
  qsum (map (fun k => axisWeight b L k x * G k)%Qc (zrange 0 (2 ^ L + b - 1))) = G j.
Proof.
  intros b L j x G HL Hb Hj HX. rewrite (qs_ext _ (fun k => if Z.eq_dec k j then G j else 0%Qc)).
  - assert (IN : In j (zrange 0 (2 ^ L + b - 1))) by now apply zrange_In. pose proof (zrange_NoDup 0 (2 ^ L + b - 1)) as ND. revert IN ND. generalize (zrange 0 (2 ^ L + b - 1)). clear.
    induction l as [|k l IH]; intros IN ND; [destruct IN|]. inversion ND; subst. cbn [map]. change (qsum (?a :: ?b)) with (a + qsum b)%Qc. destruct (Z.eq_dec k j) as [->|NE].
    + rewrite qs_zero; [ring|]. intros i Hi. destruct (Z.eq_dec i j); congruence.
    + rewrite IH; auto; [ring|]. destruct IN; [congruence|auto].
  - intros k Hk. apply zrange_In in Hk. pose proof (weight_at_point [b] [L] [j] [k] [x] eq_refl eq_refl eq_refl eq_refl) as W. cbn [pointWeight length] in W.
    assert (E : (axisWeight b L k x * 1)%Qc = if list_eq_dec Z.eq_dec [k] [j] then 1%Qc else 0%Qc).
    { apply W. intros [|i] Hi; [|lia]. cbn [nth]. split; [lia|]. split; [lia|]. split; [lia|]. split; [lia|]. exact HX. }
    replace (axisWeight b L k x) with (axisWeight b L k x * 1)%Qc by ring. rewrite E. destruct (Z.eq_dec k j) as [->|NE]; destruct (list_eq_dec Z.eq_dec [_] [j]) as [X|X]; try congruence; ring.
Qed.

(** [xs] are the coordinates of a point of the grid of level [T]. *)
Definition onGrid (bs T : list Z) (xs : list Qc) : Prop := exists w, length bs = length T /\ length xs = length T /\ length w = length T /\
  forall i, (i < length T)%nat -> 0 <= nth i bs 0 <= 2 /\ 1 <= nth i T 0 /\ 0 <= nth i w 0 < 2 ^ nth i T 0 + nth i bs 0 - 1 /\
    (nth i xs 0 * zq (2 ^ nth i T 0)%Z)%Qc = zq (nth i w 0 + firstPos (nth i bs 0)).

Lemma onGrid_cons : forall b bs t T x xs, onGrid (b :: bs) (t :: T) (x :: xs) -> onGrid bs T xs /\ 0 <= b <= 2 /\ 1 <= t /\ exists j, 0 <= j < 2 ^ t + b - 1 /\ (x * zq (2 ^ t))%Qc = zq (j + firstPos b).
Proof.
  intros b bs t T x xs (w & L1 & L2 & L3 & H). destruct w as [|j w]; [discriminate|]. pose proof (H 0%nat ltac:(cbn; lia)) as (A & B & C & D). cbn [nth] in *. split; [|split; [auto|split; [auto|exists j; auto]]].
  exists w. cbn [length] in *. split; [lia|]. split; [lia|]. split; [lia|]. intros i Hi. apply (H (S i)). lia.
Qed.

Lemma zq_nz : forall L, 0 <= L -> zq (2 ^ L) <> 0%Qc.
Proof. intros L HL E. pose proof (Z.pow_pos_nonneg 2 L ltac:(lia) HL) as P. assert (X : (0 < zq (2 ^ L))%Qc) by (rewrite <- zq_0; apply zq_lt; lia). rewrite E in X. now apply Qlt_irrefl in X. Qed.

(** In a grid that has the coordinate, interpolation in this dimension is exact. *)
Lemma sampled_exact : forall L b t j x levels bs f xs, 0 <= b <= 2 -> 1 <= t <= L -> 0 <= j < 2 ^ t + b - 1 -> (x * zq (2 ^ t))%Qc = zq (j + firstPos b) ->
  sampled (L :: levels) (b :: bs) f (x :: xs) = sampled levels bs (fun ys => f (x :: ys)) xs.
Proof.
  intros L b t j x levels bs f xs Hb HL Hj HX. unfold sampled. rewrite interpolant_cons by lia.
  assert (PE : 2 ^ L = 2 ^ t * 2 ^ (L - t)) by (rewrite <- Z.pow_add_r by lia; f_equal; lia). pose proof (Z.pow_pos_nonneg 2 t ltac:(lia) ltac:(lia)) as P1. pose proof (Z.pow_pos_nonneg 2 (L - t) ltac:(lia) ltac:(lia)) as P2.
  set (k := (j + firstPos b) * 2 ^ (L - t) - firstPos b).
  assert (HK : (x * zq (2 ^ L))%Qc = zq (k + firstPos b)).
  { rewrite PE, zq_mul, Qcmult_assoc, HX, <- zq_mul. f_equal. unfold k. ring. }
  assert (RK : 0 <= k < 2 ^ L + b - 1) by (unfold k, firstPos; destruct (Z.eqb_spec b 0); nia).
  rewrite (axis_collapse b L k x (fun j0 => interpolant levels bs (fun v => f (pointCoords (b :: bs) (L :: levels) (j0 :: v))) xs)) by (auto; lia).
  unfold interpolant. apply qs_ext. intros v _. cbn [pointCoords]. do 3 f_equal. rewrite <- HK. field. apply zq_nz. lia.
Qed.

Lemma sampled_min : forall T bs xs levels f, onGrid bs T xs -> length levels = length T -> Forall (Z.le 1) levels ->
  sampled levels bs f xs = sampled (map2 Z.min levels T) bs f xs.
Proof.
  induction T as [|t T IH]; intros bs xs levels f HG LL HL; [destruct levels; [reflexivity|discriminate]|]. destruct levels as [|L levels]; [discriminate|].
  pose proof HG as (w & LB & LX & _). destruct bs as [|b bs]; [discriminate|]. destruct xs as [|x xs]; [discriminate|].
  apply onGrid_cons in HG as (HG & Hb & Ht & j & Hj & HX). inversion HL; subst. cbn [length map2] in *. destruct (Z.le_gt_cases t L).
  - replace (Z.min L t) with t by lia. rewrite (sampled_exact L b t j), (sampled_exact t b t j) by (auto; lia). apply IH; auto; lia.
  - replace (Z.min L t) with L by lia. unfold sampled. rewrite !interpolant_cons by lia. apply qs_ext. intros k _. f_equal.
    change (sampled levels bs (fun ys => f ((zq (k + firstPos b) / zq (2 ^ L))%Qc :: ys)) xs = sampled (map2 Z.min levels T) bs (fun ys => f ((zq (k + firstPos b) / zq (2 ^ L))%Qc :: ys)) xs). apply IH; auto; lia.
Qed.
Lemma sampled_point : forall T bs xs f, onGrid bs T xs -> sampled T bs f xs = f xs.
Proof.
  induction T as [|t T IH]; intros bs xs f HG; pose proof HG as (w & LB & LX & _).
  - destruct bs; [|discriminate]. destruct xs; [|discriminate]. unfold sampled, interpolant. cbn. change (qsum [?q]) with (q + 0)%Qc. ring.
  - destruct bs as [|b bs]; [discriminate|]. destruct xs as [|x xs]; [discriminate|]. apply onGrid_cons in HG as (HG & Hb & Ht & j & Hj & HX).
    rewrite (sampled_exact t b t j) by (auto; lia). now rewrite IH.
Qed.

(** The combination of interpolants has the value of the function at all points of the grids. *)
Lemma combination_interpolates : forall (A : Type) (c : A -> Qc) (lev : A -> list Z) (us : list A) T bs xs f, onGrid bs T xs -> Forall (Z.le 1) T ->
  (forall u, In u us -> length (lev u) = length T /\ Forall (Z.le 1) (lev u)) ->
  (forall m, Forall2 (fun a b => 1 <= a <= b) m T -> qsum (map (fun u => if vleb m (lev u) then c u else 0%Qc) us) = 1%Qc) ->
  qsum (map (fun u => c u * sampled (lev u) bs f xs)%Qc us) = f xs.
Proof.
  intros A c lev us T bs xs f HG HT HL HU. rewrite (qs_ext _ (fun u => c u * (fun m => sampled m bs f xs) (map2 Z.min (lev u) T))%Qc).
  - rewrite (unity_sum A T c lev us (fun m => sampled m bs f xs)); auto. now apply sampled_point.
  - intros u Hu. destruct (HL u Hu). now rewrite (sampled_min T).
Qed.
