(** C102: what a combination gives to the tasks is the interpolated combined solution, and this solution stays the same. *)
From Verif Require Import Base TensorModel TensorProofs TensorProps PartitionModel PartitionProofs DecompModel DecompProofs DofModel DofProofs Level1dModel
  Level1dProofs LevelSetsModel LevelSetsProofs LevelSetsProps SubspaceModel SubspaceProofs SubspaceProps CombiSchemeModel CombiSchemeProofs CombiSchemeProps Hier1dModel Hier1dProofs HierMassProofs Hier1dProps
  DistHierModel DistHierProofs DistExchangeProofs DistPoleProofs HierNDModel HierNDProofs HierLinProofs HierNDProps
  SparseGridModel SparseGridProofs CombineModel SparseTransferProofs SparseGridProps ReduceModel ReduceProofs VoteProofs SubspaceReduceProofs
  CombiStepModel CombiStepProofs CombiInitProofs CombiStepProps SystemModel SystemProofs SystemHatProofs SystemProps SystemNodalProofs
  QcTools InterpModel InterpProofs InterpProps CombiInterpProofs CombiInterpProps HatRefineProofs.
From Coq Require Import QArith Qcanon.
Open Scope Z_scope.
Ltac Zify.zify_post_hook ::= idtac.

(** In a dimension in which the levels of the tasks differ, the grids are hierarchized down to the smallest of these levels. *)
Definition hierarchizedEnough (y : Setup) (all : list SysTask) : Prop :=
  forall t u k, In t all -> In u all -> (k < length (yRef y))%nat -> nth k (sLevel u) 0 < nth k (sLevel t) 0 ->
    nth k (yDims y) false = true /\ nth k (yLmin y) 0 <= nth k (sLevel u) 0.
(** ** One dimension of an interpolant *)
Fixpoint axisPart (k : nat) (u bs : list Z) (F : list Z -> Qc) (xs : list Qc) (j : Z) : Qc :=
  match k, u, bs, xs with
  | O, t :: u', b :: bs', x :: xs' => interpolant u' bs' (fun v => F (j :: v)) xs'
  | S k', t :: u', b :: bs', x :: xs' => qsum (map (fun i => axisWeight b t i x * axisPart k' u' bs' (fun v => F (i :: v)) xs' j)%Qc (zrange 0 (2 ^ t + b - 1)))
  | _, _, _, _ => 0%Qc
  end.
Lemma interpolant_axis : forall k u bs F xs x, (k < length u)%nat -> length bs = length u -> length xs = length u -> Forall (Z.le 1) u ->
  interpolant u bs F (upd xs k x) = qsum (map (fun j => axisWeight (nth k bs 0%Z) (nth k u 0%Z) j x * axisPart k u bs F xs j)%Qc (zrange 0 (2 ^ nth k u 0 + nth k bs 0 - 1))).
Proof.
  induction k as [|k IH]; intros [|t u] [|b bs] F [|x0 xs] x Hk LB LX HU; cbn [length] in *; try lia; inversion HU; subst; cbn [upd nth axisPart].
  - rewrite interpolant_cons by lia. reflexivity.
  - rewrite interpolant_cons by lia. rewrite (qs_ext _ (fun i => qsum (map (fun j => axisWeight (nth k bs 0%Z) (nth k u 0%Z) j x * (axisWeight b t i x0 * axisPart k u bs (fun v => F (i :: v)) xs j))%Qc (zrange 0 (2 ^ nth k u 0 + nth k bs 0 - 1))))).
    + rewrite qs_swap. apply qs_ext. intros j _. rewrite <- qs_scale. reflexivity.
    + intros i _. rewrite IH by (auto; lia). rewrite <- qs_scale. apply qs_ext. intros; ring.
Qed.

(** ** Linearity and zeros *)
Lemma opAll_sum : forall (A : Type) c de ks (l : list A) (q : A -> Qc) (F : A -> list Z -> Qc), wfCfg c -> (forall k, In k ks -> (k < length (hLevels c))%nat) ->
  boxEq (hSizes c) (opAll c de ks (fun w => qsum (map (fun a => q a * F a w)%Qc l))) (fun w => qsum (map (fun a => q a * opAll c de ks (F a) w)%Qc l)).
Proof.
  intros A c de ks. induction ks as [|k ks IH]; intros l q F HW Hks; [intros v Hv; reflexivity|]. cbn [opAll fold_left].
  assert (Ks : forall k, In k ks -> (k < length (hLevels c))%nat) by (intros; apply Hks; now right). assert (Hk : (k < length (hLevels c))%nat) by (apply Hks; now left).
  intros v Hv. transitivity (opAll c de ks (fun w => qsum (map (fun a => q a * dimOp c de k (F a) w)%Qc l)) v).
  - apply (opAll_ext c de ks); auto. intros w Hw. destruct (active c k) eqn:E.
    + rewrite dimOp_opAt by auto. unfold opAt. rewrite (linRange_sum _ _ (cfg_lin c de k HW Hk) A l q (fun a i => F a (upd w k i))) by (apply nth_inBox; auto; rewrite sizes_length; auto).
      apply qs_ext. intros a _. f_equal. rewrite dimOp_opAt by auto. reflexivity.
    + unfold dimOp. rewrite E. reflexivity.
  - apply (IH l q (fun a => dimOp c de k (F a))); auto.
Qed.

Section Zero.
Variable y : Setup. Variable t : SysTask. Variable k : nat. Variable lu : Z.
Hypothesis HY : wfSetup y. Hypothesis HT : wfTask y t. Hypothesis Hk : (k < length (yRef y))%nat.
Let c := taskCfg y (sLevel t).
(** [H] vanishes at the points that are above level [lu] in dimension [k]. *)
Definition zeroAbove (H : list Z -> Qc) : Prop := forall w, isPoint y t w -> lu < lev (nth k (sLevel t) 0) (gridPos (nth k (yBnds y) 0) (nth k w 0)) -> H w = 0%Qc.

Lemma dims_cfg : forall i, (i < length (yRef y))%nat -> (i < length (hLevels c))%nat.
Proof. intros i Hi. destruct HT as (L & _). cbn [c taskCfg hLevels]. lia. Qed.
Lemma zero_dimOp : forall j H, j <> k -> (j < length (yRef y))%nat -> zeroAbove H -> zeroAbove (dimOp c false j H).
Proof.
  intros j H N Hj HZ w Hw HL. pose proof (taskCfg_wf y t HY HT) as WC. fold c in WC. destruct (active c j) eqn:E.
  - rewrite dimOp_opAt by auto. unfold opAt. pose proof (nth_inBox _ _ j Hw ltac:(unfold globalSizes; rewrite map2_length; destruct HT as (L & _); destruct HY as (_ & LB & _); lia)) as R.
    change (globalSizes (sLevel t) (yBnds y)) with (hSizes c) in R. assert (R0 : 0 <= nth j (hSizes c) 0) by lia. rewrite (linRange_coeff _ _ R0 (cfg_lin c false j WC (dims_cfg j Hj))) by auto.
    apply qs_zero. intros i Hi. apply zrange_In in Hi. rewrite HZ; [ring|apply (upd_inBox (hSizes c)); auto|]. now rewrite nth_upd_other by auto.
  - unfold dimOp. rewrite E. auto.
Qed.
Lemma zero_opAll : forall ks H, ~ In k ks -> (forall j, In j ks -> (j < length (yRef y))%nat) -> zeroAbove H -> zeroAbove (opAll c false ks H).
Proof.
  induction ks as [|j ks IH]; intros H N Hks HZ; auto. cbn [opAll fold_left]. apply IH; [intros X; apply N; now right|intros; apply Hks; now right|].
  apply zero_dimOp; auto; [intros ->; apply N; now left|apply Hks; now left].
Qed.
Lemma zero_surplus : forall H, zeroAbove (dimOp c false k H) -> zeroAbove (surplus y (sLevel t) H).
Proof.
  intros H HZ. unfold surplus. fold c. assert (IN : In k (dims y)) by now apply dims_In. destruct (in_split _ _ IN) as (l1 & l2 & E). rewrite E. unfold opAll. rewrite fold_left_app. cbn [fold_left].
  change (zeroAbove (opAll c false l2 (dimOp c false k (opAll c false l1 H)))).
  assert (ND : NoDup (dims y)) by apply seq_NoDup. rewrite E in ND. pose proof (NoDup_remove_2 _ _ _ ND) as N.
  assert (K : forall j, In j (l1 ++ k :: l2) -> (j < length (yRef y))%nat) by (intros j Hj; apply dims_In; now rewrite E).
  apply zero_opAll; [intros X; apply N, in_or_app; now right|intros j Hj; apply K, in_or_app; right; now right|].
  intros w Hw HL. pose proof (taskCfg_wf y t HY HT) as WC. fold c in WC.
  assert (K1 : forall j, In j l1 -> (j < length (yRef y))%nat) by (intros j Hj; apply K, in_or_app; now left).
  rewrite (opAll_comm c false false l1 k H WC (fun j Hj => dims_cfg j (K1 j Hj)) (dims_cfg k Hk) ltac:(intros X; apply N, in_or_app; now left) w Hw).
  apply (zero_opAll l1 (dimOp c false k H)); auto. intros X. apply N, in_or_app. now left.
Qed.
End Zero.

(** ** Surpluses of interpolants *)
(** The interpolant of task [u], sampled on the grid of task [t]. *)
Definition interpOn (y : Setup) (t u : SysTask) (w : list Z) : Qc := interpolant (sLevel u) (yBnds y) (valueAt y u) (coordinates y (sLevel t) w).

Lemma levels_pos : forall y t, wfTask y t -> Forall (Z.le 1) (sLevel t).
Proof. intros y t (L1 & L2 & _). apply Forall_forall. intros x Hx. destruct (In_nth _ _ 0 Hx) as (k & Hk & <-). specialize (L2 k ltac:(lia)). lia. Qed.
Lemma interpOn_agree : forall y t u, wfSetup y -> wfTask y t -> wfTask y u -> agreeAll y t u (interpOn y t u) (valueAt y u).
Proof.
  intros y t u HY HT HU w w' Hw Hw' SP. unfold interpOn. replace (coordinates y (sLevel t) w) with (coordinates y (sLevel u) w').
  - rewrite <- coords_point by auto. pose proof HY as (_ & LB & _ & _ & HK & _). pose proof HU as (L1 & L2 & _). apply (isPoint_nth y u w' HY HU) in Hw' as [LW' Pw'].
    apply interpolant_point; try lia. intros i Hi. specialize (L2 i ltac:(lia)). specialize (Pw' i ltac:(lia)). destruct (HK i ltac:(lia)) as (_ & B & _). lia.
  - unfold coordinates. apply map_ext_in. intros k Hk. apply dims_In in Hk. specialize (SP k Hk). destruct HT as (_ & L1 & _). destruct HU as (_ & L2 & _). specialize (L1 k Hk). specialize (L2 k Hk). apply (f_equal toQc) in SP. rewrite !toQc_mul in SP.
    assert (N1 : toQc (2 ^ nth k (sLevel t) 0) <> 0%Qc) by (apply (zq_nz (nth k (sLevel t) 0)); lia). assert (N2 : toQc (2 ^ nth k (sLevel u) 0) <> 0%Qc) by (apply (zq_nz (nth k (sLevel u) 0)); lia).
    set (a := toQc (2 ^ nth k (sLevel t) 0)) in *. set (b := toQc (2 ^ nth k (sLevel u) 0)) in *. set (p := toQc (gridPos _ (nth k w 0))) in *. set (q := toQc (gridPos _ (nth k w' 0))) in *.
    symmetry. transitivity ((p * b) / (a * b))%Qc; [field; auto|]. rewrite SP. field. auto.
Qed.
Lemma coordinates_upd : forall y L w k i, (k < length (yRef y))%nat -> length w = length (yRef y) ->
  coordinates y L (upd w k i) = upd (coordinates y L w) k (zq (i + firstPos (nth k (yBnds y) 0%Z)) / zq ((2 ^ nth k L 0)%Z))%Qc.
Proof.
  intros y L w k i Hk LW. unfold coordinates. apply (nth_ext _ _ 0%Qc 0%Qc); [rewrite upd_length; now rewrite !map_length|]. intros n Hn. rewrite map_length in Hn. unfold dims in Hn. rewrite seq_length in Hn.
  rewrite map_dims_nthQ by auto. rewrite upd_nth' by lia. destruct (Nat.eqb_spec n k) as [->|NE].
  - rewrite nth_upd_same by (rewrite map_length; unfold dims; rewrite seq_length; lia). unfold toQc, zq, gridPos, firstPos. f_equal. destruct (_ =? 0); do 3 f_equal; lia.
  - rewrite nth_upd_other by auto. now rewrite map_dims_nthQ by auto.
Qed.
Lemma interpOn_zero : forall y t u k, wfSetup y -> hatSetup y -> wfTask y t -> wfTask y u -> (k < length (yRef y))%nat ->
  nth k (yDims y) false = true -> nth k (yLmin y) 0 <= nth k (sLevel u) 0 ->
  zeroAbove y t k (nth k (sLevel u) 0) (surplus y (sLevel t) (interpOn y t u)).
Proof.
  intros y t u k HY HH HT HU Hk HD HM. apply zero_surplus; auto. intros w Hw HL. rewrite dimOp_hat by auto. rewrite HD.
  pose proof HY as (_ & LB & LM & _ & HK & _). destruct (HK k Hk) as (A1 & A2 & A3 & _). pose proof HT as (L1 & L2 & _). specialize (L2 k Hk). pose proof HU as (U1 & U2 & _). specialize (U2 k Hk).
  pose proof (proj1 (isPoint_nth y t w HY HT) Hw) as [LW Pw]. specialize (Pw k Hk). destruct (effectiveLmin_spec y k HY Hk) as (_ & E1 & _).
  assert (EM : nth k (effectiveLmin y) 0 <= nth k (yLmin y) 0) by (unfold effectiveLmin; destruct (existsb _ _); [rewrite nth_repeat; lia|lia]).
  apply (aw_surplus _ (nth k (sLevel u) 0) _ _ _ (axisPart k (sLevel u) (yBnds y) (valueAt y u) (coordinates y (sLevel t) w))); try lia.
  - unfold gridPos. destruct (Z.eqb_spec (nth k (yBnds y) 0) 0); lia.
  - intros i Hi. unfold interpOn. rewrite coordinates_upd by auto. apply interpolant_axis; try lia; [unfold coordinates; rewrite map_length; unfold dims; rewrite seq_length; lia|now apply (levels_pos y)].
Qed.

(** The surplus of the sampled interpolant: the one of the task where it has the point, and zero elsewhere. *)
Lemma interpOn_surplus : forall y t u w, wfSetup y -> hatSetup y ->
  (forall k, (k < length (yRef y))%nat -> nth k (sLevel u) 0 < nth k (sLevel t) 0 -> nth k (yDims y) false = true /\ nth k (yLmin y) 0 <= nth k (sLevel u) 0) ->
  wfTask y t -> wfTask y u -> isPoint y t w ->
  surplus y (sLevel t) (interpOn y t u) w =
  if vleb (levelOf y (sLevel t) w) (sLevel u) then surplus y (sLevel u) (valueAt y u) (sameIndex y (sLevel t) (sLevel u) w) else 0%Qc.
Proof.
  intros y t u w HY HH HE HT HU Hw. destruct (vleb _ _) eqn:V.
  - destruct (sameIndex_point y t u w HY HT HU Hw V) as (P & SP). apply (surplus_agree y t u (interpOn y t u) (valueAt y u) HY HT HU HH (interpOn_agree y t u HY HT HU)); auto.
  - pose proof HT as (L1 & L2 & _). pose proof HU as (U1 & U2 & _).
    assert (EX : exists k, (k < length (yRef y))%nat /\ nth k (sLevel u) 0 < nth k (levelOf y (sLevel t) w) 0).
    { destruct (existsb (fun k => nth k (sLevel u) 0 <? nth k (levelOf y (sLevel t) w) 0) (dims y)) eqn:X.
      - apply existsb_exists in X as (k & K & L). apply dims_In in K. apply Z.ltb_lt in L. eauto.
      - exfalso. assert (F : Forall2 Z.le (levelOf y (sLevel t) w) (sLevel u)); [|apply vleb_spec in F; [congruence|rewrite levelOf_length; lia]].
        apply (Forall2_nth_iff _ _ _ 0 0). split; [rewrite levelOf_length; lia|]. intros k Hk. rewrite levelOf_length in Hk. apply Z.nlt_ge. intros C. assert (existsb (fun k => nth k (sLevel u) 0 <? nth k (levelOf y (sLevel t) w) 0) (dims y) = true); [|congruence].
        apply existsb_exists. exists k. split; [now apply dims_In|]. now apply Z.ltb_lt. }
    destruct EX as (k & Hk & LK). unfold levelOf in LK. rewrite map_dims_nth in LK by auto. rewrite getLevel_lev in LK. specialize (L2 k Hk). specialize (U2 k Hk).
    pose proof (proj1 (isPoint_nth y t w HY HT) Hw) as [_ Pw]. specialize (Pw k Hk). pose proof HY as (_ & _ & _ & _ & HK & _). destruct (HK k Hk) as (_ & B & _).
    assert (LR : lev (nth k (sLevel t) 0) (gridPos (nth k (yBnds y) 0) (nth k w 0)) <= nth k (sLevel t) 0) by (apply lev_range; [lia|unfold gridPos; destruct (Z.eqb_spec (nth k (yBnds y) 0) 0); lia]).
    destruct (HE k Hk ltac:(lia)) as (D & M). apply (interpOn_zero y t u k); auto. lia.
Qed.

Lemma qs_filter : forall (p : SysTask -> bool) f l, qsum (map (fun u => if p u then f u else 0%Qc) l) = qsum (map f (filter p l)).
Proof. intros p f l. induction l as [|a l IH]; auto. cbn [map filter]. change (qsum (?a :: ?b)) with (a + qsum b)%Qc. destruct (p a); cbn [map]; try change (qsum (?a :: ?b)) with (a + qsum b)%Qc; rewrite IH; ring. Qed.
Lemma sameIndex_self : forall y t w, wfSetup y -> wfTask y t -> isPoint y t w -> sameIndex y (sLevel t) (sLevel t) w = w.
Proof.
  intros y t w HY HT Hw. destruct (sameIndex_point y t t w HY HT HT Hw (levelOf_le y t w HY HT Hw)) as (P & SP). symmetry. apply (samePoint_same y t); auto.
Qed.

(** ** C102 *)

(** After a combination every task has at its grid points the values that [interpolateValues] gave before. *)
Lemma combined_is_interpolated : forall y all t t' w, wfSetup y -> hatSetup y -> Forall (wfTask y) all -> hierarchizedEnough y all -> sharedSubspaces y all -> In t all -> combinedSys y all t t' -> isPoint y t w ->
  valueAt y t' w = qsum (map (fun u => sCoeff u * interpOn y t u w)%Qc all).
Proof.
  intros y all t t' w HY HH HA HE HL Ht (_ & _ & C) Hw. rewrite C by auto. rewrite Forall_forall in HA. pose proof (HA t Ht) as HT. pose proof (taskCfg_wf y t HY HT) as WC.
  assert (KD : forall k, In k (dims y) -> (k < length (hLevels (taskCfg y (sLevel t))))%nat) by (intros k K; apply dims_In in K; destruct HT as (L & _); cbn [taskCfg hLevels]; lia).
  transitivity (nodal y (sLevel t) (surplus y (sLevel t) (fun w => qsum (map (fun u => sCoeff u * interpOn y t u w)%Qc all))) w).
  - unfold nodal. apply surplus_ext; auto. intros v Hv. unfold surplus. rewrite (opAll_sum SysTask (taskCfg y (sLevel t)) false (dims y) all sCoeff (interpOn y t) WC KD v Hv).
    unfold combinedAt. cbv zeta. destruct (in_dec _ _ _) as [_|X].
    + apply qs_ext. intros u Hu. pose proof (interpOn_surplus y t u v HY HH (fun k => HE t u k Ht Hu) HT (HA u Hu) Hv) as E. unfold surplus at 1 in E. rewrite E. destruct (vleb _ _); [reflexivity|ring].
    + destruct (HL t _ Ht (levelOf_range y t v HY HT Hv)) as [C'|(C1 & E)]; [contradiction|].
      rewrite (qs_ext _ (fun u => if vleb (levelOf y (sLevel t) v) (sLevel u) then sCoeff u * surplus y (sLevel u) (valueAt y u) (sameIndex y (sLevel t) (sLevel u) v) else 0)%Qc).
      2:{ intros u Hu. pose proof (interpOn_surplus y t u v HY HH (fun k => HE t u k Ht Hu) HT (HA u Hu) Hv) as E'. unfold surplus at 1 in E'. rewrite E'. destruct (vleb _ _); [reflexivity|ring]. }
      rewrite (qs_filter (fun u => vleb (levelOf y (sLevel t) v) (sLevel u)) (fun u => sCoeff u * surplus y (sLevel u) (valueAt y u) (sameIndex y (sLevel t) (sLevel u) v))%Qc), E. cbn [map].
      change (qsum [?a]) with (a + 0)%Qc. rewrite C1, (sameIndex_self y t v HY HT Hv). cbv beta. unfold surplus. ring.
  - apply (roundtrip_sys y t false); auto. now apply hat_invertible.
Qed.
Theorem C102_tasks_get_combined_solution : forall y v esz tasks S S' chunk order staleH staleD t w, wfSystem y v tasks -> hatSetup y -> sysReachable y v esz tasks S ->
  0 < chunk < 2 ^ 31 -> allOrders y S order -> hierarchizedEnough y (concat (sTasks S)) -> sharedSubspaces y (concat (sTasks S)) ->
  combineSystem y v esz chunk order staleH staleD S = Some S' ->
  In t (concat (sTasks S')) -> isPoint y t w ->
  valueAt y t w = systemValue y S (coordinates y (sLevel t) w).
Proof.
  intros y v esz tasks S S' chunk order sH sD t w W HH R HC HO HE HL E Ht Hw.
  destruct (combine_sys y v esz tasks S chunk order sH sD W R HC HO) as (X & EX & R' & ST & F). rewrite E in EX. injection EX as <-.
  pose proof W as (HY & HT & _). pose proof (sysReachable_inv _ _ _ _ _ W R) as (I & _).
  assert (WT : Forall (wfTask y) (concat (sTasks S))) by (eapply sameTasks_wf; eauto).
  destruct (Forall2_In_r _ _ _ _ F Ht) as (t0 & Ht0 & CA). pose proof CA as (L & _). unfold isPoint in Hw. rewrite L in *.
  rewrite system_value by (auto; apply coords_domain; auto; rewrite Forall_forall in WT; auto). now apply combined_is_interpolated.
Qed.

Lemma qs_Forall2 : forall {A B} (Q : A -> B -> Prop) (f : A -> Qc) (g : B -> Qc) la lb, Forall2 Q la lb -> (forall a b, In a la -> Q a b -> g b = f a) -> qsum (map g lb) = qsum (map f la).
Proof.
  intros A B Q f g la lb F. induction F as [|a b la lb C F IH]; intros G; auto. cbn [map]. change (qsum (?a :: ?b)) with (a + qsum b)%Qc. rewrite IH by (intros; apply G; auto; now right). rewrite (G a b); auto. now left.
Qed.
(** And [interpolateValues] gives the same value as before the combination, at every coordinate. *)
Theorem C102_interpolation_unchanged : forall y v esz tasks S S' chunk order staleH staleD xs, wfSystem y v tasks -> hatSetup y -> sysReachable y v esz tasks S ->
  0 < chunk < 2 ^ 31 -> allOrders y S order -> hierarchizedEnough y (concat (sTasks S)) -> sharedSubspaces y (concat (sTasks S)) -> unityAll (concat (sTasks S)) ->
  Forall2 (fun b x => (0 <= x)%Qc /\ (x <= 1)%Qc /\ (b = 1 -> (x < 1)%Qc)) (yBnds y) xs ->
  combineSystem y v esz chunk order staleH staleD S = Some S' ->
  systemValue y S' xs = systemValue y S xs.
Proof.
  intros y v esz tasks S S' chunk order sH sD xs W HH R HC HO HE HL HU HX E.
  destruct (combine_sys y v esz tasks S chunk order sH sD W R HC HO) as (X & EX & R' & ST & F). rewrite E in EX. injection EX as <-.
  pose proof W as (HY & HT & _). pose proof (sysReachable_inv _ _ _ _ _ W R) as (I & _). pose proof (sysReachable_inv _ _ _ _ _ W R') as (I' & _).
  assert (WT : Forall (wfTask y) (concat (sTasks S))) by (eapply sameTasks_wf; eauto). assert (WT' : Forall (wfTask y) (concat (sTasks S'))) by (eapply sameTasks_wf; eauto).
  rewrite !system_value by auto. set (all := concat (sTasks S)) in *.
  pose proof HY as (_ & LB & _ & _ & HK & _).
  assert (HB : Forall (fun b => 0 <= b <= 2) (yBnds y)) by (apply Forall_forall; intros b Hb; destruct (In_nth _ _ 0 Hb) as (k & Hk & <-); destruct (HK k ltac:(lia)) as (_ & B & _); exact B).
  (* the tasks after the combination, in terms of those before *)
  transitivity (qsum (map (fun t => sCoeff t * sampled (sLevel t) (yBnds y) (fun ys => qsum (map (fun u => sCoeff u * interpolant (sLevel u) (yBnds y) (valueAt y u) ys)%Qc all)) xs)%Qc all)).
  - assert (G : forall a b, In a all -> combinedSys y all a b -> (sCoeff b * interpolant (sLevel b) (yBnds y) (valueAt y b) xs = sCoeff a * sampled (sLevel a) (yBnds y) (fun ys => qsum (map (fun u => sCoeff u * interpolant (sLevel u) (yBnds y) (valueAt y u) ys)%Qc all)) xs)%Qc).
    { intros a b Ha CA. pose proof CA as (L & C & _). rewrite L, C. f_equal. unfold sampled, interpolant at 1 2. apply qs_ext. intros w Hw. f_equal. rewrite Forall_forall in WT.
      assert (LG : length (globalSizes (sLevel a) (yBnds y)) = length (sLevel a)) by (apply globalSizes_length; destruct (WT a Ha) as (L1 & _); lia).
      assert (Pw : isPoint y a w) by (unfold isPoint; apply boxPoints_sizes_In; now rewrite LG).
      rewrite (combined_is_interpolated y all a b w) by (auto; now apply Forall_forall). unfold interpOn. rewrite coords_point by auto. reflexivity. }
    exact (qs_Forall2 _ _ _ _ _ F G).
  - rewrite (qs_ext _ (fun t => qsum (map (fun u => sCoeff u * (sCoeff t * sampled (sLevel t) (yBnds y) (interpolant (sLevel u) (yBnds y) (valueAt y u)) xs))%Qc all))).
    + rewrite qs_swap. apply qs_ext. intros u Hu. rewrite qs_scale. f_equal. rewrite Forall_forall in WT. destruct (WT u Hu) as (U1 & _).
      apply (combination_exact SysTask sCoeff sLevel all (sLevel u)); auto; [lia|now apply (levels_pos y); auto| |].
      * intros t Ht. split; [destruct (WT t Ht) as (L1 & _); lia|now apply (levels_pos y); auto].
      * intros m Hm. now apply (HU m u).
    + intros t Ht. rewrite (sampled_sum SysTask (sLevel t) (yBnds y) all sCoeff (fun u => interpolant (sLevel u) (yBnds y) (valueAt y u))), <- qs_scale. apply qs_ext. intros; ring.
Qed.
(** For the schemes of the library. *)
Theorem C102_scheme : forall y v esz tasks S S' chunk order staleH staleD lmin lmax s xs, wfSystem y v tasks -> hatSetup y -> sysReachable y v esz tasks S ->
  0 < chunk < 2 ^ 31 -> allOrders y S order -> hierarchizedEnough y (concat (sTasks S)) -> sharedSubspaces y (concat (sTasks S)) ->
  Forall2 Z.le lmin lmax -> lmin <> [] -> Forall (fun x => 1 <= x) lmin -> schemeOf lmin lmax s -> sysTasksOf s (concat tasks) ->
  Forall2 (fun b x => (0 <= x)%Qc /\ (x <= 1)%Qc /\ (b = 1 -> (x < 1)%Qc)) (yBnds y) xs ->
  combineSystem y v esz chunk order staleH staleD S = Some S' ->
  systemValue y S' xs = systemValue y S xs.
Proof.
  intros y v esz tasks S S' chunk order sH sD lmin lmax s xs W HH R HC HO HE HL F N P HS TO HX E. pose proof W as (HY & HT & _). pose proof (sysReachable_inv _ _ _ _ _ W R) as (I & _).
  assert (WT : Forall (wfTask y) (concat (sTasks S))) by (eapply sameTasks_wf; eauto).
  apply (C102_interpolation_unchanged y v esz tasks S S' chunk order sH sD xs); auto. apply (scheme_unityAll y lmin lmax s); auto. eapply sameTasks_scheme; eauto.
Qed.
(** ** Examples and limits *)
Definition oneCombination (y : Setup) (ts : list (list SysTask)) : option (System * System) :=
  match startSystem y VOutgroup 8 ts with
  | Some X => match combineSystem y VOutgroup 8 3 (fun _ => [[0; 1]%nat]) exStale exStale X with
              | Some X1 => Some (X, X1)
              | None => None
              end
  | None => None
  end.
Lemma oneCombination_steps : forall y ts X, startSystem y VOutgroup 8 ts = Some X ->
  oneCombination y ts = option_map (pair X) (combineSystem y VOutgroup 8 3 (fun _ => [[0; 1]%nat]) exStale exStale X).
Proof. intros y ts X E. unfold oneCombination. rewrite E. now destruct (combineSystem _ _ _ _ _ _ _ _). Qed.
Definition eighth : list Qc := [(1 / toQc 8)%Qc; (1 / toQc 4)%Qc].
Lemma exLevels_below : forall t l, In t (concat exSys) -> Forall2 (fun a b => 1 <= a <= b) l (sLevel t) -> In l [[1; 1]; [1; 2]; [2; 1]].
Proof.
  intros t l Ht F. destruct Ht as [<-|[<-|[<-|[]]]]; cbn [exTask sLevel] in F; inversion F as [|a0 b0 l0 r0 R0 F1]; subst; inversion F1 as [|a1 b1 l1 r1 R1 F2]; subst; inversion F2; subst.
  - assert (a1 = 1) as -> by lia. assert (a0 = 1 \/ a0 = 2) as [-> | ->] by lia; cbn; tauto.
  - assert (a1 = 1) as -> by lia. assert (a0 = 1) as -> by lia. cbn; tauto.
  - assert (a0 = 1) as -> by lia. assert (a1 = 1 \/ a1 = 2) as [-> | ->] by lia; cbn; tauto.
Qed.
Example C102_ex_hyps : wfSystem exSetup VOutgroup exSys /\ hatSetup exSetup /\ hierarchizedEnough exSetup (concat exSys) /\ sharedSubspaces exSetup (concat exSys) /\ unityAll (concat exSys) /\
  Forall2 (fun b x => (0 <= x)%Qc /\ (x <= 1)%Qc /\ (b = 1 -> (x < 1)%Qc)) (yBnds exSetup) eighth.
Proof.
  split; [apply C72_ex_hyps|]. split; [intros [|[|k]] Hk _; cbn in Hk; try lia; now left|]. split; [|split; [|split]].
  - intros t u [|[|k]] Ht Hu Hk H; cbn in Hk; try lia; cbn in Ht, Hu; (split; [reflexivity|]); destruct Hu as [<-|[<-|[<-|[]]]]; cbn; lia.
  - intros t l Ht F. left. apply (exLevels_below t l Ht F).
  - intros l t Ht F. exact (proj1 C101_ex_hyps l (match sLevel t with [2; 1] => exTask exSetup [2; 1] (toQc 1) (fun w => exFun (coordinates exSetup [2; 1] w)) | [1; 1] => exTask exSetup [1; 1] (toQc (-1)) (fun w => exFun (coordinates exSetup [1; 1] w)) | _ => exTask exSetup [1; 2] (toQc 1) (fun w => exFun (coordinates exSetup [1; 2] w)) end)
      ltac:(destruct Ht as [<-|[<-|[<-|[]]]]; cbn; tauto) ltac:(destruct Ht as [<-|[<-|[<-|[]]]]; exact F)).
  - constructor; [|constructor; [|constructor]]; (split; [discriminate|split; [discriminate|discriminate]]).
Qed.
(** The values of all tasks change, the interpolated solution at (1/8, 1/4) does not; afterwards every task has its values. *)
Example C102_ex : match oneCombination exSetup exSys with
  | Some (X, X1) =>
      this (systemValue exSetup X eighth) = this (systemValue exSetup X1 eighth) /\
      map (map (fun t => map (fun w => this (systemValue exSetup X (coordinates exSetup (sLevel t) w))) (boxPoints [0; 0] (globalSizes (sLevel t) [2; 2])))) (sTasks X1) =
      map (map (fun t => map (fun w => this (valueAt exSetup t w)) (boxPoints [0; 0] (globalSizes (sLevel t) [2; 2])))) (sTasks X1) /\
      exValues exSetup X <> exValues exSetup X1
  | None => False
  end.
Proof. vm_compute. split; [reflexivity|]. split; [reflexivity|discriminate]. Qed.

(** A sparse grid that has only the subspace which several tasks have: the others need no exchange. *)
Definition exSetupSmall : Setup :=
  {| yProcs := [2; 1]; yBnds := [2; 2]; yRef := [2; 2]; yDecs := [[0; 2]; [0]]; yDims := [true; true]; yBases := [Hat; Hat]; yLmin := [0; 0];
     yLevels := [[1; 1]] |}.
Example C102_ex_small_hyps : wfSystem exSetupSmall VOutgroup exSys /\ hierarchizedEnough exSetupSmall (concat exSys) /\ sharedSubspaces exSetupSmall (concat exSys).
Proof.
  destruct C102_ex_hyps as (W & _ & HE & _). destruct W as ((A & B & C & D & K & G & _) & HT & HV). split; [|split; [exact HE|]].
  - split; [|split; [exact HT|]].
    + split; [exact A|]. split; [exact B|]. split; [exact C|]. split; [exact D|]. split; [exact K|]. split; [exists []; reflexivity|]. split; [split|]; repeat constructor; lia.
    + intros r Hr. change (zprod (yProcs exSetupSmall)) with 2 in Hr. unfold exSys. set (ts := map (map (localTask exSetupSmall r)) _).
      split; [assert (r = 0 \/ r = 1) as [-> | ->] by lia; vm_compute; reflexivity|]. split; [cbn; lia|]. left.
      assert (H1 : holdsLevel ts [1; 1] 0) by (exists (localTask exSetupSmall r (exTask exSetup [2; 1] (toQc 1) (exNum 1))); split; [now left|split; [repeat constructor; cbn; lia|assert (r = 0 \/ r = 1) as [-> | ->] by lia; vm_compute; discriminate]]).
      assert (H2 : holdsLevel ts [1; 1] 1) by (exists (localTask exSetupSmall r (exTask exSetup [1; 2] (toQc 1) (exNum 5))); split; [now left|split; [repeat constructor; cbn; lia|assert (r = 0 \/ r = 1) as [-> | ->] by lia; vm_compute; discriminate]]).
      intros [|[|g]] Hg; [exists [1; 1], 1%nat|exists [1; 1], 0%nat|cbn in Hg; lia]; (split; [now left|split; [lia|split; assumption]]).
  - intros t l Ht F. destruct (exLevels_below t l Ht F) as [<-|[<-|[<-|[]]]]; [left; now left|right|right];
      (destruct Ht as [<-|[<-|[<-|[]]]]; cbn [exTask sLevel] in F; inversion F as [|a0 b0 l0 r0 R0 F1]; subst; inversion F1 as [|a1 b1 l1 r1 R1 F2]; subst; try lia; split; reflexivity).
Qed.
Example C102_ex_small : match oneCombination exSetupSmall exSys, oneCombination exSetup exSys with
  | Some (X, X1), Some (_, Y1) =>
      this (systemValue exSetupSmall X eighth) = this (systemValue exSetupSmall X1 eighth) /\ exValues exSetupSmall X1 = exValues exSetup Y1
  | _, _ => False
  end.
Proof. vm_compute. split; reflexivity. Qed.

(** The same setup without hierarchization in the second dimension, and with full weighting. *)
Definition exSetupHalf : Setup :=
  {| yProcs := [2; 1]; yBnds := [2; 2]; yRef := [2; 2]; yDecs := [[0; 2]; [0]]; yDims := [true; false]; yBases := [Hat; Hat]; yLmin := [0; 0];
     yLevels := [[1; 1]; [1; 2]; [2; 1]] |}.
(** Without hierarchization in a dimension in which the levels differ, the combination changes the interpolated solution (everything else as in
    [C102_interpolation_unchanged]). *)
Theorem C102_not_hierarchized_refuted : exists y tasks S S' xs, wfSystem y VOutgroup tasks /\ hatSetup y /\ startSystem y VOutgroup 8 tasks = Some S /\
  sharedSubspaces y (concat (sTasks S)) /\ unityAll (concat (sTasks S)) /\
  Forall2 (fun b x => (0 <= x)%Qc /\ (x <= 1)%Qc /\ (b = 1 -> (x < 1)%Qc)) (yBnds y) xs /\
  combineSystem y VOutgroup 8 3 (fun _ => [[0; 1]%nat]) exStale exStale S = Some S' /\
  systemValue y S' xs <> systemValue y S xs.
Proof.
  destruct C102_ex_hyps as (W & HH & _ & HL & HU & HX). destruct W as ((A & B & C & D & K & G) & HT & HV).
  assert (W' : wfSystem exSetupHalf VOutgroup exSys).
  { split; [|split; [exact HT|exact HV]]. split; [exact A|]. split; [exact B|]. split; [exact C|]. split; [exact D|]. split; [|exact G]. intros [|[|k]] Hk; cbn in Hk; try lia; cbn; intuition lia. }
  destruct (C72_start exSetupHalf VOutgroup 8 exSys W') as (S & E1 & ES).
  destruct (combineSystem exSetupHalf VOutgroup 8 3 (fun _ => [[0; 1]%nat]) exStale exStale S) as [S'|] eqn:E2.
  2:{ exfalso. assert (X : match oneCombination exSetupHalf exSys with Some _ => True | None => False end) by (vm_compute; exact I). rewrite (oneCombination_steps _ _ _ E1), E2 in X. exact X. }
  exists exSetupHalf, exSys, S, S', eighth. split; [exact W'|]. split; [intros [|[|k]] Hk Hd; cbn in Hk; try lia; now left|]. split; [exact E1|]. rewrite ES. split; [exact HL|]. split; [exact HU|]. split; [exact HX|]. split; [exact E2|].
  intros E. assert (X : match oneCombination exSetupHalf exSys with Some (X, X1) => this (systemValue exSetupHalf X1 eighth) <> this (systemValue exSetupHalf X eighth) | None => False end) by (vm_compute; discriminate).
  rewrite (oneCombination_steps _ _ _ E1), E2 in X. apply X. now rewrite E.
Qed.

Print Assumptions C102_tasks_get_combined_solution.
Print Assumptions C102_interpolation_unchanged.
Print Assumptions C102_scheme.
Print Assumptions C102_not_hierarchized_refuted.
