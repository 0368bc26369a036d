(** C19 (round trip in several dimensions) and C21 (distributed equals serial) for whole grids. *)
From Verif Require Import Base TensorModel TensorProofs PartitionModel PartitionProofs DecompModel DecompProofs DofModel DofProofs Level1dModel
  Level1dProofs SubspaceModel SubspaceProofs Hier1dModel Hier1dProofs HierMassProofs Hier1dProps DistHierModel DistHierProofs DistExchangeProofs
  DistPoleProofs HierNDModel HierNDProofs HierLinProofs.
From Coq Require Import QArith Qcanon.
Open Scope Z_scope.
Ltac Zify.zify_post_hook ::= idtac.

Definition supported (c : HCfg) (ks : list nat) : Prop :=
  forall k, In k ks -> active c k = true -> nth k (hBnds c) 0 > 0 \/ nth k (hBases c) Hat = Hat.

Lemma supported_dec : forall c ks, {supported c ks} + {~ supported c ks}.
Proof.
  intros c ks. induction ks as [|k ks [IH|IH]].
  - left. intros k [].
  - destruct (active c k) eqn:A; [|left; intros k' [<- | H] Ha; [congruence|now apply IH]].
    destruct (Z_lt_dec 0 (nth k (hBnds c) 0)) as [B|B]; [left; intros k' [<- | H] Ha; [left; lia|now apply IH]|].
    destruct (isHat (nth k (hBases c) Hat)) eqn:E.
    + apply isHat_spec in E. left. intros k' [<- | H] Ha; [now right|now apply IH].
    + right. intros S. destruct (S k (or_introl eq_refl) A) as [X|X]; [lia|]. apply isHat_spec in X. congruence.
  - right. intros S. apply IH. intros k' H. apply S. now right.
Defined.

Definition opAll (c : HCfg) (dehier : bool) (ks : list nat) (G : list Z -> Qc) : list Z -> Qc :=
  fold_left (fun G k => dimOp c dehier k G) ks G.

Lemma sweepDim_some : forall c dehier k stale data,
  (active c k = true -> nth k (hBnds c) 0 > 0 \/ nth k (hBases c) Hat = Hat) <-> exists data', sweepDim c dehier k stale data = Some data'.
Proof.
  intros c dehier k stale data. unfold sweepDim, active. rewrite Z.geb_leb, Z.ltb_antisym.
  destruct (nth k (hDims c) false); cbn [negb andb]; [|split; [eauto|discriminate]].
  destruct (nth k (hLevels c) 0 <=? nth k (hLmin c) 0); cbn [negb]; [split; [eauto|discriminate]|].
  rewrite Z.gtb_ltb. destruct (Z.ltb_spec 0 (nth k (hBnds c) 0)); cbn [orb]; [split; [eauto|intros; left; lia]|].
  destruct (isHat (nth k (hBases c) Hat)) eqn:E.
  - apply isHat_spec in E. split; eauto.
  - split; [|intros [? X]; discriminate X]. intros X. destruct (X eq_refl) as [X1|X1]; [lia|].
    apply isHat_spec in X1. congruence.
Qed.

Lemma sweepDims_spec : forall c dehier ks stale G data, wfCfg c -> (forall k, In k ks -> (k < length (hLevels c))%nat) ->
  represents c G data ->
  (supported c ks -> exists data', sweepDims c dehier ks stale data = Some data' /\ represents c (opAll c dehier ks G) data') /\
  (~ supported c ks -> sweepDims c dehier ks stale data = None).
Proof.
  intros c dehier ks. induction ks as [|k ks IH]; intros stale G data HW Hks HG.
  - split; [intros _; exists data; split; auto|]. intros N. exfalso. apply N. intros k [].
  - cbn [sweepDims]. pose proof (sweepDim_some c dehier k (stale k) data) as S.
    assert (Ks : forall k, In k ks -> (k < length (hLevels c))%nat) by (intros; apply Hks; now right).
    destruct (sweepDim c dehier k (stale k) data) as [data1|] eqn:E.
    + pose proof (sweep_represents c k HW (Hks k (or_introl eq_refl)) dehier (stale k) G data data1 HG E) as H1.
      destruct (IH stale _ data1 HW Ks H1) as [I1 I2]. split.
      * intros HS. apply I1. intros k' Hk'. apply HS. now right.
      * intros N. apply I2. intros HS. apply N. intros k' [<- | Hk']; [apply S; eauto|now apply HS].
    + split.
      * intros HS. destruct (proj1 S (HS k (or_introl eq_refl))) as [? X]. discriminate X.
      * reflexivity.
Qed.

Lemma seq_dims : forall (c : HCfg) k, In k (seq 0 (length (hLevels c))) -> (k < length (hLevels c))%nat.
Proof. intros c k H. apply in_seq in H. lia. Qed.

(** ** Whole grids *)

Lemma dimOp_opAt : forall c dehier k G v, active c k = true ->
  dimOp c dehier k G v = opAt k (poleOp (nth k (hBases c) Hat) dehier (nth k (hBnds c) 0) (nth k (hLevels c) 0)
                                        (nth k (hLmin c) 0) (nth k (hSizes c) 0)) G v.
Proof. intros c dehier k G v E. unfold dimOp. rewrite E. reflexivity. Qed.

Lemma cfg_lin : forall c dehier k, wfCfg c -> (k < length (hLevels c))%nat ->
  linRange (nth k (hSizes c) 0) (poleOp (nth k (hBases c) Hat) dehier (nth k (hBnds c) 0) (nth k (hLevels c) 0)
                                        (nth k (hLmin c) 0) (nth k (hSizes c) 0)).
Proof.
  intros c dehier k HW Hk. pose proof (n_formula c k HW Hk) as Hn. destruct HW as (_ & _ & _ & _ & HP).
  destruct (HP k Hk) as (H1 & H2 & H3 & _). apply poleOp_lin; auto.
Qed.

Lemma dimOp_ext : forall c dehier k G G', wfCfg c -> (k < length (hLevels c))%nat -> boxEq (hSizes c) G G' ->
  boxEq (hSizes c) (dimOp c dehier k G) (dimOp c dehier k G').
Proof.
  intros c dehier k G G' HW Hk H v Hv. destruct (active c k) eqn:E.
  - rewrite !dimOp_opAt by auto. apply (opAt_ext (hSizes c)); auto; [rewrite sizes_length; auto|now apply cfg_lin].
  - unfold dimOp. rewrite E. auto.
Qed.

Lemma dimOp_comm : forall c de de' j k G, wfCfg c -> (j < length (hLevels c))%nat -> (k < length (hLevels c))%nat -> j <> k ->
  boxEq (hSizes c) (dimOp c de j (dimOp c de' k G)) (dimOp c de' k (dimOp c de j G)).
Proof.
  intros c de de' j k G HW Hj Hk N v Hv. destruct (active c j) eqn:Ej, (active c k) eqn:Ek.
  - rewrite !dimOp_opAt by auto.
    pose proof (opAt_comm (hSizes c) j k _ _ G ltac:(rewrite sizes_length; auto) ltac:(rewrite sizes_length; auto) N
                  (cfg_lin c de j HW Hj) (cfg_lin c de' k HW Hk) v Hv) as C.
    transitivity (opAt j (poleOp (nth j (hBases c) Hat) de (nth j (hBnds c) 0) (nth j (hLevels c) 0) (nth j (hLmin c) 0) (nth j (hSizes c) 0))
       (opAt k (poleOp (nth k (hBases c) Hat) de' (nth k (hBnds c) 0) (nth k (hLevels c) 0) (nth k (hLmin c) 0) (nth k (hSizes c) 0)) G) v).
    + apply (opAt_ext (hSizes c)); auto; [rewrite sizes_length; auto|now apply cfg_lin|]. intros w Hw. now apply dimOp_opAt.
    + rewrite C. symmetry. apply (opAt_ext (hSizes c)); auto; [rewrite sizes_length; auto|now apply cfg_lin|]. intros w Hw. now apply dimOp_opAt.
  - unfold dimOp. rewrite Ej, Ek. auto.
  - unfold dimOp. rewrite Ej, Ek. auto.
  - unfold dimOp. rewrite Ej, Ek. auto.
Qed.

Lemma boxEq_trans : forall s F G H, boxEq s F G -> boxEq s G H -> boxEq s F H.
Proof. intros s F G H E1 E2 v Hv. rewrite E1; auto. Qed.
Lemma boxEq_sym : forall s F G, boxEq s F G -> boxEq s G F.
Proof. intros s F G E v Hv. symmetry. auto. Qed.

Lemma opAll_ext : forall c de ks G G', wfCfg c -> (forall k, In k ks -> (k < length (hLevels c))%nat) ->
  boxEq (hSizes c) G G' -> boxEq (hSizes c) (opAll c de ks G) (opAll c de ks G').
Proof.
  intros c de ks. induction ks as [|k ks IH]; intros G G' HW Hks H; auto. cbn [opAll fold_left].
  apply IH; auto; [intros; apply Hks; now right|]. apply dimOp_ext; auto. apply Hks. now left.
Qed.

Lemma opAll_comm : forall c de de' ks k G, wfCfg c -> (forall k, In k ks -> (k < length (hLevels c))%nat) ->
  (k < length (hLevels c))%nat -> ~ In k ks ->
  boxEq (hSizes c) (dimOp c de k (opAll c de' ks G)) (opAll c de' ks (dimOp c de k G)).
Proof.
  intros c de de' ks. induction ks as [|j ks IH]; intros k G HW Hks Hk N; [intros v Hv; reflexivity|]. cbn [opAll fold_left].
  assert (Ks : forall k, In k ks -> (k < length (hLevels c))%nat) by (intros; apply Hks; now right).
  eapply boxEq_trans; [apply IH; auto; intros X; apply N; now right|].
  apply opAll_ext; auto. apply dimOp_comm; auto; [apply Hks; now left|]. intros ->. apply N. now left.
Qed.

Lemma upd_upd : forall (v : list Z) k x y, upd (upd v k x) k y = upd v k y.
Proof. induction v as [|z v IH]; intros [|k] x y; simpl; auto. now rewrite IH. Qed.

Lemma upd_id : forall (v : list Z) k, upd v k (nth k v 0) = v.
Proof. induction v as [|z v IH]; intros [|k]; simpl; auto. now rewrite IH. Qed.

(** The data can be handled by the basis in every dimension that is transformed. *)
Definition suitableGrid (c : HCfg) (G : list Z -> Qc) : Prop :=
  forall k v, (k < length (hLevels c))%nat -> active c k = true -> inBox (hSizes c) v ->
    suitable (nth k (hBases c) Hat) (nth k (hBnds c) 0) (nth k (hSizes c) 0) (fun i => G (upd v k i)).

Lemma suitableGrid_supported : forall c G ks, wfCfg c -> suitableGrid c G -> (forall k, In k ks -> (k < length (hLevels c))%nat) ->
  supported c ks.
Proof.
  intros c G ks HW HS Hks k Hin Ha. specialize (Hks k Hin).
  assert (I : inBox (hSizes c) (repeat 0 (length (hLevels c)))).
  { apply inBox_nth. rewrite repeat_length, sizes_length by auto. split; auto. intros i Hi.
    destruct (dec_valid c HW i Hi) as [_ V]. pose proof (validDec1_nonempty _ _ V) as [Hl E]. destruct V as (_ & _ & V).
    specialize (V 0%nat Hl). rewrite nth_repeat. lia. }
  destruct (HS k _ Hks Ha I) as [S0 _]. destruct HW as (_ & _ & _ & _ & HP). destruct (HP k Hks) as (_ & Hb & _).
  destruct (Z.eq_dec (nth k (hBnds c) 0) 0) as [E|E]; [right; auto|left; lia].
Qed.

Lemma dimOp_roundtrip : forall c (de : bool) k G, wfCfg c -> (k < length (hLevels c))%nat -> suitableGrid c G ->
  boxEq (hSizes c) (dimOp c (negb de) k (dimOp c de k G)) G.
Proof.
  intros c de k G HW Hk HS v Hv. destruct (active c k) eqn:Ea.
  2: { unfold dimOp. rewrite !Ea. reflexivity. }
  rewrite dimOp_opAt by auto. pose proof (cfg_lin c (negb de) k HW Hk) as LR. pose proof (n_formula c k HW Hk) as Hn.
  assert (Lv : length v = length (hLevels c)) by (apply inBox_length in Hv; rewrite sizes_length in Hv; auto).
  set (n := nth k (hSizes c) 0) in *.
  assert (Rv : 0 <= nth k v 0 < n) by (apply (nth_inBox (hSizes c)); auto; rewrite sizes_length; auto).
  pose proof (HS k v Hk Ea Hv) as SU. fold n in SU.
  destruct HW as (_ & _ & _ & _ & HP). destruct (HP k Hk) as (H1 & H2 & H3 & _). clear HP.
  unfold active in Ea. apply andb_true_iff in Ea. destruct Ea as [Ed El]. apply Z.ltb_lt in El.
  set (f := nth k (hBases c) Hat) in *. set (b := nth k (hBnds c) 0) in *. set (L := nth k (hLevels c) 0) in *.
  set (m := nth k (hLmin c) 0) in *. set (g := fun i => G (upd v k i)) in *.
  unfold opAt.
  transitivity (poleOp f (negb de) b L m n (poleOp f de b L m n g) (nth k v 0)).
  - apply (linRange_ext n _ LR); auto. intros i Hi. unfold dimOp, active. rewrite Ed. fold L. fold m.
    rewrite (proj2 (Z.ltb_lt m L) El). cbn [andb]. fold f. fold b. fold n. rewrite nth_upd_same by lia.
    pose proof (poleOp_lin f de b L m n H2 H3 H1 Hn) as LP. apply (linRange_ext n _ LP); auto.
    intros i' Hi'. unfold g. now rewrite upd_upd.
  - assert (SO : forall x g, exists w, (if (x : bool) then dehierPole else hierPole) f b L m n 0 n (fun _ => 0%Qc) [] g = Some w).
    { intros x g'. unfold dehierPole, hierPole. pose proof (Z.geb_leb m L) as EG. rewrite (proj2 (Z.leb_gt L m) El) in EG.
      destruct SU as [S0 _]. destruct x; rewrite EG; destruct (Z.gtb_spec b 0) as [B|B]; eauto;
        rewrite S0 by lia; eauto. }
    destruct (SO de g) as [h Eh]. destruct (SO (negb de) h) as [w Ew].
    assert (P1 : poleOp f de b L m n g = h) by (unfold poleOp; rewrite Eh; reflexivity).
    assert (P2 : poleOp f (negb de) b L m n h = w) by (unfold poleOp; rewrite Ew; reflexivity).
    rewrite P1, P2. transitivity (g (nth k v 0)); [|unfold g; now rewrite upd_id].
    destruct (pole_roundtrip f b L m n (fun _ => 0%Qc) (fun _ => 0%Qc) g h H2 ltac:(lia) H3 Hn SU) as [R1 R2].
    destruct de; cbn [negb] in *; [eapply R2; eauto|eapply R1; eauto].
Qed.

Lemma opAll_roundtrip : forall c de ks G, wfCfg c -> (forall k, In k ks -> (k < length (hLevels c))%nat) -> NoDup ks ->
  suitableGrid c G -> boxEq (hSizes c) (opAll c (negb de) ks (opAll c de ks G)) G.
Proof.
  intros c de ks. induction ks as [|k ks IH]; intros G HW Hks ND HS; [intros v Hv; reflexivity|]. inv ND.
  assert (Ks : forall k, In k ks -> (k < length (hLevels c))%nat) by (intros; apply Hks; now right).
  assert (Hk : (k < length (hLevels c))%nat) by (apply Hks; now left).
  cbn [opAll fold_left]. fold (opAll c de ks (dimOp c de k G)).
  eapply boxEq_trans; [apply opAll_ext; auto; apply opAll_comm; auto|].
  eapply boxEq_trans; [apply opAll_ext; auto; apply opAll_ext; auto; apply dimOp_roundtrip; auto|].
  apply IH; auto.
Qed.

Lemma represents_unique : forall c G G' data data', wfCfg c -> represents c G data -> represents c G' data' ->
  boxEq (hSizes c) G G' -> forall r l, 0 <= r < zprod (hProcs c) -> 0 <= l < zprod (hLocalSizes c r) -> data r l = data' r l.
Proof.
  intros c G G' data data' HW H1 H2 HE r l Hr Hl. pose proof (localSizes_pos c HW r Hr) as PE.
  pose proof (unlin_inBox (hLocalSizes c r) l PE) as I. specialize (H1 r _ Hr I). specialize (H2 r _ Hr I).
  rewrite sequentialIndex_lin, lin_unlin in H1, H2 by auto. rewrite H1, H2. apply HE.
  destruct (lower_len c HW r Hr) as (L1 & L2 & L3). apply inBox_nth. rewrite vadd_length by (apply inBox_length in I; lia).
  rewrite sizes_length by auto. split; [lia|]. intros i Hi.
  assert (VN : forall a b i, length a = length b -> nth i (vadd a b) 0 = nth i a 0 + nth i b 0).
  { induction a as [|x a IHa]; intros [|y b'] [|i'] E; simpl in *; try lia. apply IHa. lia. }
  rewrite VN by (apply inBox_length in I; lia). apply inBox_nth in I. destruct I as [_ I]. specialize (I i ltac:(lia)).
  rewrite localSizes_nth in I by auto. destruct (bounds c HW r i Hr Hi) as [BL BU]. destruct (dec_valid c HW i Hi) as [EP V].
  destruct (coords_len c HW r Hr) as [_ CI]. apply inBox_nth in CI. destruct CI as [CL CI].
  pose proof (validDec1_range _ _ (nth i (coordsOfRank (hProcs c) r) 0) V). destruct (lens c HW) as [LP _].
  specialize (CI i ltac:(lia)). lia.
Qed.

(** Every state of the processes is the distribution of a grid function. *)
Definition gridFunction (c : HCfg) (data : Z -> arr) : list Z -> Qc := fun w =>
  let r := rankOfCoords (hProcs c) (partitionCoords (hDecs c) w) in
  data r (sequentialIndex (hLocalSizes c r) (vsub w (hLower c r))).

Lemma vsub_vadd : forall a b, length a = length b -> vsub (vadd a b) a = b.
Proof. induction a as [|x a IH]; intros [|y b] H; simpl in *; try lia; auto. rewrite IH by lia. f_equal. lia. Qed.

Lemma vadd_nth : forall a b i, length a = length b -> nth i (vadd a b) 0 = nth i a 0 + nth i b 0.
Proof. induction a as [|x a IHa]; intros [|y b'] [|i'] E; simpl in *; try lia. apply IHa. lia. Qed.

Theorem C19_state_is_grid_function : forall c data, wfCfg c -> represents c (gridFunction c data) data.
Proof.
  intros c data HW r v Hr Hv. unfold gridFunction.
  destruct (lower_len c HW r Hr) as (L1 & L2 & L3). destruct (lens c HW) as [LP LD].
  pose proof (inBox_length _ _ Hv) as Lv. pose proof HW as (_ & _ & _ & V & _).
  set (w := vadd (hLower c r) v).
  assert (Lw : length w = length (hLevels c)) by (unfold w; rewrite vadd_length; lia).
  assert (O : owns (hProcs c) (hSizes c) (hDecs c) r w).
  { split; [lia|]. intros i Hi. unfold w. rewrite vadd_nth by lia. apply inBox_nth in Hv. destruct Hv as [_ Hv].
    specialize (Hv i ltac:(lia)). rewrite (localSizes_nth c HW r i Hr ltac:(lia)) in Hv. unfold hLower, hUpper in *. lia. }
  pose proof (owns_inside _ _ _ _ _ V Hr O) as I. destruct (partitionCoords_inBox _ _ _ _ V I) as [PI PO].
  assert (E : rankOfCoords (hProcs c) (partitionCoords (hDecs c) w) = r).
  { eapply owner_unique; eauto. now apply rank_range. }
  rewrite E. unfold w. rewrite vsub_vadd by lia. reflexivity.
Qed.

(** ** C63: the traversal of the poles *)

Lemma filter_none : forall {A} (f : A -> bool) l, (forall x, In x l -> f x = false) -> filter f l = [].
Proof. induction l as [|y l IH]; intros H; auto. simpl. rewrite H by now left. apply IH. intros; apply H; now right. Qed.

Theorem C63_poles_cover_once : forall (noBoundary : bool) ls k, posExt ls -> (k < length ls)%nat ->
  let poles := (if noBoundary then polesNoBoundary else polesWithBoundary) ls k in
  forall v, inBox ls v ->
    length (filter (fun p => existsb (fun i => snd p + nth k (localOffsets ls) 0 * i =? sequentialIndex ls v)
                                     (zrange 0 (nth k ls 0))) poles) = 1%nat /\
    forall p i, In p poles -> 0 <= i < nth k ls 0 -> snd p + nth k (localOffsets ls) 0 * i = sequentialIndex ls v ->
      i = nth k v 0 /\
      (* the number of the pole is the position of its values in the slices of the neighbors *)
      sliceElement ls k (fst p) i = sequentialIndex ls v.
Proof.
  intros noBoundary ls k HP Hk poles v Hv.
  destruct (split_at ls k Hk) as (A & s & B & ES & LA). subst ls. subst k.
  destruct (poles_spec A s B HP) as (P1 & P2 & N1 & N2).
  assert (IP : forall p, In p poles <-> isPole A s B p) by (unfold poles; destruct noBoundary; auto).
  assert (ND : NoDup poles) by (unfold poles; destruct noBoundary; auto). clearbody poles. clear P1 P2 N1 N2.
  pose proof (proj1 (posExt_split A s B) HP) as (PA & Ps & PB). pose proof (zprod_posExt A PA) as ZA.
  pose proof (inBox_split A s B v) as SP. apply SP in Hv as Hv'. destruct Hv' as (a & x & b & -> & Ha & Hx & Hb). clear SP.
  pose proof (inBox_length _ _ Ha) as La.
  rewrite (offsets_split' A s B _ eq_refl), (nth_split' A B s _ eq_refl).
  rewrite (nth_split' a b x (length A)) by auto. rewrite sequentialIndex_lin, lin_split by auto.
  pose proof (lin_range A a Ha) as RA. pose proof (lin_range B b Hb) as RB.
  set (pole := (lin A a + lin B b * zprod A, lin B b * (zprod A * s) + lin A a)).
  assert (Hpole : isPole A s B pole) by (exists (lin A a), (lin B b); auto).
  set (l := lin A a + zprod A * (x + s * lin B b)).
  assert (On : onPole A s pole l) by (exists x; split; auto; unfold pole, l; cbn [snd]; ring).
  assert (U : forall p i, In p poles -> 0 <= i < s -> snd p + zprod A * i = l -> p = pole /\ i = x).
  { intros p i Hp Hi E. assert (p = pole) as ->.
    { apply (pole_disjoint A s B p pole l); auto; [now apply IP|]. exists i. auto. }
    split; auto. unfold pole, l in E. cbn [snd] in E. assert (zprod A * i = zprod A * x) by lia. nia. }
  split.
  - destruct (in_split pole poles (proj2 (IP pole) Hpole)) as (l1 & l2 & ->).
    rewrite filter_app. cbn [filter].
    assert (existsb (fun i => snd pole + zprod A * i =? l) (zrange 0 s) = true) as ->.
    { apply existsb_exists. exists x. rewrite zrange_In. split; [lia|]. apply Z.eqb_eq. unfold pole, l. cbn [snd]. ring. }
    apply NoDup_remove_2 in ND.
    assert (F : forall l', (forall p, In p l' -> In p (l1 ++ l2)) ->
      filter (fun p => existsb (fun i => snd p + zprod A * i =? l) (zrange 0 s)) l' = []).
    { intros l' H. apply filter_none. intros p Hp. apply not_true_is_false. intros E. apply existsb_exists in E.
      destruct E as (i & Hi & E). apply zrange_In in Hi. apply Z.eqb_eq in E.
      specialize (H p Hp). assert (Hp' : In p (l1 ++ pole :: l2)) by (apply in_app_iff in H; apply in_app_iff; cbn [In]; tauto).
      destruct (U p i Hp' ltac:(lia) E) as [-> _]. now apply ND. }
    rewrite !F by (intros; apply in_app_iff; auto). reflexivity.
  - intros p i Hp Hi E. destruct (U p i Hp Hi E) as [-> ->]. split; auto.
    unfold sliceElement. rewrite (upd_split' A B s 1 _ eq_refl), (offsets_split' A s B _ eq_refl).
    assert (I : inBox (A ++ 1 :: B) (a ++ 0 :: b)).
    { apply inBox_split. exists a, 0, b. repeat split; auto; lia. }
    pose proof (lin_range _ _ I) as RI. rewrite lin_split in RI by auto.
    assert (fst pole = lin (A ++ 1 :: B) (a ++ 0 :: b)) as -> by (rewrite lin_split by auto; unfold pole; cbn [fst]; ring).
    rewrite getVectorIndex_unlin; [|eapply inBox_pos; eauto|now apply lin_range]. rewrite unlin_lin by auto.
    rewrite sequentialIndex_lin, lin_split by auto. unfold l. ring.
Qed.

Example C63_ex : polesWithBoundary [2; 3; 2] 1 = [(0, 0); (1, 1); (2, 6); (3, 7)] /\
  polesNoBoundary [2; 3; 2] 1 = [(0, 0); (1, 1); (2, 6); (3, 7)] /\ sliceElement [2; 3; 2] 1 3 2 = 11.
Proof. repeat split; vm_compute; reflexivity. Qed.

(** ** C19 *)

Theorem C19_roundtrip : forall c stale stale' G data, wfCfg c -> represents c G data -> suitableGrid c G ->
  (exists h d, hierarchizeAll c stale data = Some h /\ dehierarchizeAll c stale' h = Some d /\
     forall r l, 0 <= r < zprod (hProcs c) -> 0 <= l < zprod (hLocalSizes c r) -> d r l = data r l) /\
  (exists h d, dehierarchizeAll c stale data = Some h /\ hierarchizeAll c stale' h = Some d /\
     forall r l, 0 <= r < zprod (hProcs c) -> 0 <= l < zprod (hLocalSizes c r) -> d r l = data r l).
Proof.
  intros c stale stale' G data HW HG HS. set (ks := seq 0 (length (hLevels c))).
  assert (Ks : forall k, In k ks -> (k < length (hLevels c))%nat) by (intros; now apply seq_dims).
  pose proof (suitableGrid_supported c G ks HW HS Ks) as SU.
  assert (R : forall de : bool, exists h d, sweepDims c de ks stale data = Some h /\ sweepDims c (negb de) ks stale' h = Some d /\
     forall r l, 0 <= r < zprod (hProcs c) -> 0 <= l < zprod (hLocalSizes c r) -> d r l = data r l).
  { intros de. destruct (sweepDims_spec c de ks stale G data HW Ks HG) as [A _]. destruct (A SU) as (h & Eh & Rh).
    destruct (sweepDims_spec c (negb de) ks stale' _ h HW Ks Rh) as [B _]. destruct (B SU) as (d & Ed & Rd).
    exists h, d. split; auto. split; auto. intros r l Hr Hl.
    apply (represents_unique c _ _ d data HW Rd HG); auto. apply opAll_roundtrip; auto. apply seq_NoDup. }
  split; [exact (R false)|exact (R true)].
Qed.

(** The hat bases need no assumption on the values at all. *)
Theorem C19_hat_roundtrip : forall c stale stale' data, wfCfg c ->
  (forall k, (k < length (hLevels c))%nat -> nth k (hBases c) Hat = Hat \/
     nth k (hBases c) Hat = HatPeriodic /\ nth k (hBnds c) 0 > 0) ->
  exists h d, hierarchizeAll c stale data = Some h /\ dehierarchizeAll c stale' h = Some d /\
     forall r l, 0 <= r < zprod (hProcs c) -> 0 <= l < zprod (hLocalSizes c r) -> d r l = data r l.
Proof.
  intros c stale stale' data HW HB. apply (C19_roundtrip c stale stale' (gridFunction c data)); auto.
  - now apply C19_state_is_grid_function.
  - intros k v Hk Ha Hv. destruct (HB k Hk) as [-> | [-> B]]; (split; [|split]); auto; try lia; intros _ [X|X]; discriminate X.
Qed.

(** ** C21 *)

(** Two distributions of the same grid, e.g. one with a single process: after (de)hierarchization the processes still hold
    the same values at the same grid points, or both throw. *)
Theorem C21_distribution_independent : forall c c' (dehier : bool) stale stale' data data', wfCfg c -> wfCfg c' ->
  hLevels c' = hLevels c -> hBnds c' = hBnds c -> hDims c' = hDims c -> hBases c' = hBases c -> hLmin c' = hLmin c ->
  let samePoints := fun a a' : Z -> arr =>
    forall r r' v v', 0 <= r < zprod (hProcs c) -> 0 <= r' < zprod (hProcs c') ->
      inBox (hLocalSizes c r) v -> inBox (hLocalSizes c' r') v' -> vadd (hLower c r) v = vadd (hLower c' r') v' ->
      a r (sequentialIndex (hLocalSizes c r) v) = a' r' (sequentialIndex (hLocalSizes c' r') v') in
  samePoints data data' ->
  match (if dehier then dehierarchizeAll else hierarchizeAll) c stale data,
        (if dehier then dehierarchizeAll else hierarchizeAll) c' stale' data' with
  | Some u, Some u' => samePoints u u'
  | None, None => True
  | _, _ => False
  end.
Proof.
  intros c c' dehier stale stale' data data' HW HW' E1 E2 E3 E4 E5 samePoints HS.
  set (G := gridFunction c data). pose proof (C19_state_is_grid_function c data HW) as HG. fold G in HG.
  assert (HG' : represents c' G data').
  { intros r' v' Hr' Hv'. unfold G, gridFunction. set (w := vadd (hLower c' r') v').
    assert (SZ : hSizes c' = hSizes c) by (unfold hSizes; rewrite E1, E2; reflexivity).
    assert (I : inBox (hSizes c) w).
    { rewrite <- SZ. destruct (lower_len c' HW' r' Hr') as (L1 & L2 & L3). destruct (lens c' HW') as [LP _].
      pose proof HW' as (_ & _ & _ & V' & _). apply (owns_inside (hProcs c') (hSizes c') (hDecs c') w r'); auto.
      pose proof (inBox_length _ _ Hv') as Lv. split; [unfold w; rewrite vadd_length; lia|].
      intros i Hi. unfold w. rewrite vadd_nth by lia. apply inBox_nth in Hv'. destruct Hv' as [_ Hv'].
      specialize (Hv' i ltac:(lia)). rewrite (localSizes_nth c' HW' r' i Hr' ltac:(lia)) in Hv'. unfold hLower, hUpper in *. lia. }
    pose proof HW as (_ & _ & _ & V & _). destruct (partitionCoords_inBox _ _ _ _ V I) as [PI [OL PO]].
    set (r := rankOfCoords (hProcs c) (partitionCoords (hDecs c) w)) in *.
    assert (Hr : 0 <= r < zprod (hProcs c)) by now apply rank_range.
    destruct (lower_len c HW r Hr) as (L1 & L2 & L3). destruct (lens c HW) as [LP _].
    symmetry. apply HS; auto.
    - apply inBox_nth. rewrite vsub_length by lia. split; [lia|]. intros i Hi. rewrite vsub_nth by lia.
      rewrite (localSizes_nth c HW r i Hr ltac:(lia)). specialize (PO i ltac:(lia)). unfold hLower, hUpper in *. lia.
    - assert (VV : forall a b, length a = length b -> vadd a (vsub b a) = b).
      { induction a as [|x a IH]; intros [|y b] H; simpl in *; try lia; auto. rewrite IH by lia. f_equal. lia. }
      fold w. apply VV. lia. }
  set (ks := seq 0 (length (hLevels c))).
  assert (Ks : forall k, In k ks -> (k < length (hLevels c))%nat) by (intros; now apply seq_dims).
  assert (Ks' : forall k, In k ks -> (k < length (hLevels c'))%nat) by (rewrite E1; auto).
  destruct (sweepDims_spec c dehier ks stale G data HW Ks HG) as [A1 A2].
  destruct (sweepDims_spec c' dehier ks stale' G data' HW' Ks' HG') as [B1 B2].
  assert (AC : forall k, active c' k = active c k) by (intros; unfold active; rewrite E3, E5, E1; reflexivity).
  assert (SE : supported c' ks <-> supported c ks).
  { unfold supported. split; intros H k Hk Ha; specialize (H k Hk); rewrite AC, E2, E4 in *; auto. }
  assert (OE : forall l F, opAll c' dehier l F = opAll c dehier l F).
  { induction l as [|k l IH]; intros F; auto. unfold opAll in *. cbn [fold_left].
    assert (dimOp c' dehier k F = dimOp c dehier k F) as -> by (unfold dimOp, active, hSizes; rewrite E1, E2, E3, E4, E5; reflexivity).
    apply IH. }
  assert (GOAL : match sweepDims c dehier ks stale data, sweepDims c' dehier ks stale' data' with
    | Some u, Some u' => samePoints u u' | None, None => True | _, _ => False end).
  { destruct (supported_dec c ks) as [S|S].
    - destruct (A1 S) as (u & -> & R). destruct (B1 (proj2 SE S)) as (u' & -> & R'). rewrite OE in R'.
      intros r r' v v' Hr Hr' Hv Hv' E. rewrite (R r v Hr Hv), (R' r' v' Hr' Hv'), E. reflexivity.
    - rewrite A2, B2; auto. intros X. apply S. now apply SE. }
  destruct dehier; unfold dehierarchizeAll, hierarchizeAll; rewrite E1; exact GOAL.
Qed.

(** 5 x 2 points on 2 x 2 processes, boundary points in the first and a periodic second dimension. *)
Definition exCfg : HCfg := {| hProcs := [2; 2]; hLevels := [2; 1]; hBnds := [2; 1]; hDecs := [[0; 2]; [0; 1]];
  hDims := [true; true]; hBases := [Hat; BiorthogonalPeriodic]; hLmin := [0; 0] |}.
Definition exSerial : HCfg := {| hProcs := [1; 1]; hLevels := [2; 1]; hBnds := [2; 1]; hDecs := [[0]; [0]];
  hDims := [true; true]; hBases := [Hat; BiorthogonalPeriodic]; hLmin := [0; 0] |}.
Definition exG (v : list Z) : Qc := qz (3 * nth 0 v 0 * nth 0 v 0 + 7 * nth 1 v 0 + nth 0 v 0 * nth 1 v 0).
Definition exData (c : HCfg) (r : Z) : arr := fun l =>
  exG (vadd (hLower c r) (getVectorIndex (hLocalSizes c r) l)).

Lemma exCfg_wf : wfCfg exCfg /\ wfCfg exSerial.
Proof.
  split; (split; [simpl; lia|]; split; [reflexivity|]; split; [reflexivity|]; split;
   [|intros [|[|k]] Hk; simpl in *; lia]); (split; [reflexivity|]; split; [reflexivity|]);
   intros [|[|i]] Hi; cbn in Hi; try lia; (split; [reflexivity|]); (split; [reflexivity|]);
   (split; [intros [|[|[|i]]] [|[|[|j]]] H; cbn in *; lia|intros [|[|[|i]]] H; cbn in *; lia]).
Qed.

Lemma exData_represents : forall c, wfCfg c -> represents c exG (exData c).
Proof.
  intros c HW r v Hr Hv. unfold exData. pose proof (lin_range _ _ Hv). pose proof (inBox_pos _ _ Hv).
  rewrite sequentialIndex_lin, getVectorIndex_unlin, unlin_lin; auto.
Qed.

Example C19_ex : wfCfg exCfg /\ represents exCfg exG (exData exCfg) /\ suitableGrid exCfg exG /\
  match hierarchizeAll exCfg (fun _ _ _ _ => qz 99) (exData exCfg) with
  | Some h => h 3 1 <> exData exCfg 3 1 /\
      match dehierarchizeAll exCfg (fun _ _ _ _ => qz 77) h with
      | Some d => d 3 1 = exData exCfg 3 1 /\ d 3 1 = qz 37
      | None => False
      end
  | None => False
  end.
Proof.
  split; [apply exCfg_wf|]. split; [apply exData_represents, exCfg_wf|]. split.
  - intros [|[|k]] v Hk Ha Hv; cbn in Hk; try lia; cbn; (split; [|split]); auto; try lia; intros _ [X|X]; discriminate X.
  - vm_compute. split; [discriminate|]. split; reflexivity.
Qed.

(** The point (4, 1) on process 3 and on the only process. *)
Example C21_grid_ex : wfCfg exCfg /\ wfCfg exSerial /\
  match hierarchizeAll exCfg (fun _ _ _ _ => qz 99) (exData exCfg),
        hierarchizeAll exSerial (fun _ _ _ _ => qz 77) (exData exSerial) with
  | Some u, Some u' => u 3 2 = u' 0 9 /\ u 3 1 = u' 0 8 /\ u 3 1 <> exData exCfg 3 1
  | _, _ => False
  end.
Proof. split; [apply exCfg_wf|]. split; [apply exCfg_wf|]. vm_compute. repeat split; try reflexivity; discriminate. Qed.

Print Assumptions C63_poles_cover_once.
Print Assumptions C19_state_is_grid_function.
Print Assumptions C19_roundtrip.
Print Assumptions C19_hat_roundtrip.
Print Assumptions C21_distribution_independent.
