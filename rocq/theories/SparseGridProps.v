(** C23, C24, C25, C49, C50: the sparse grid of one process. *)
From Verif Require Import Base TensorModel TensorProofs PartitionProofs DofProofs Level1dModel Level1dProofs LevelSetsModel LevelSetsProofs SubspaceModel
  SubspaceProofs SubspaceProps CombiSchemeModel CombiSchemeProofs Hier1dModel Hier1dProofs HierMassProofs SparseGridModel SparseGridProofs
  CombineModel SparseTransferProofs.
From Coq Require Import QArith Qcanon.
Open Scope Z_scope.
Ltac Zify.zify_post_hook ::= idtac.

(** ** C23: storage layout *)

(** The buffer of length [len] is tiled by the ranges of the chosen subspaces [w], in ascending order; range [i] starts at the
    pointer of subspace [i] and has the registered size. *)
Definition tilesBuffer (sizes w : list Z) (ptr : list (option Z)) (len : Z) : Prop :=
  exists start : Z -> Z,
    (forall i, 0 <= i < Z.of_nat (length sizes) -> nth (Z.to_nat i) ptr None = Some (start i)) /\
    (forall i, In i w -> 0 <= i < Z.of_nat (length sizes) /\ 0 <= start i /\ start i + nth (Z.to_nat i) sizes 0 <= len) /\
    (forall i j, In i w -> In j w -> i < j -> start i + nth (Z.to_nat i) sizes 0 <= start j) /\
    (forall k, 0 <= k < len -> exists i, In i w /\ start i <= k < start i + nth (Z.to_nat i) sizes 0).

Lemma laidOut_tiles : forall sizes w ptr len, Forall (fun s => 0 <= s < 2 ^ 32) sizes -> goodSet (Z.of_nat (length sizes)) w ->
  laidOut sizes w ptr len -> len < 2 ^ 32 -> tilesBuffer sizes w ptr len.
Proof.
  intros sizes w ptr len HS HG HLO HT. destruct (laidOut_spec _ _ _ _ HS HG HLO HT) as (P & Q & _ & E).
  assert (P0 : Forall (Z.le 0) sizes) by (eapply Forall_impl; [|exact HS]; cbn; intros; lia).
  destruct HG as [_ HR]. exists (before sizes w). split; [|split; [|split]]; auto.
  - intros i Hi. specialize (HR i Hi). split; auto. rewrite <- Q by auto. rewrite E.
    pose proof (before_mono sizes w 0 i P0 ltac:(lia)). rewrite before_0 in *. split; auto. apply before_mono; auto. lia.
  - intros i j Hi Hj Hij. rewrite <- Q by auto. apply before_mono; auto. specialize (HR i Hi). lia.
  - intros k Hk. rewrite E in Hk. apply before_cover in Hk. destruct Hk as (i & _ & Hi & R). exists i. auto.
Qed.

(** After any history, an allocated buffer is tiled by the allocated subspaces, as long as the total number of values fits
    into the 32 bits the code uses for offsets. *)
Theorem C23_layout : forall n esz ops, Forall (validOp n) ops ->
  let d := fold_left (runOp esz) ops (initDSG n) in
  (dLen d <> 0 -> dLen d < 2 ^ 32 -> tilesBuffer (dSizes d) (dWith d) (dPtr d) (dLen d)) /\
  (dKLen d <> 0 -> dKLen d < 2 ^ 32 -> tilesBuffer (dSizes d) (dWith d) (dKPtr d) (dKLen d)).
Proof.
  intros n esz ops HV d. pose proof (runOps_inv n esz ops (initDSG n) (init_inv n) HV) as I. fold d in I.
  destruct I as (I1 & I2 & I3 & I4 & I5). rewrite <- I1 in I3. split; intros H1 H2; apply laidOut_tiles; auto.
Qed.

(** The layout is not right when the total exceeds 32 bits: the offset wraps around and a later subspace starts at the
    beginning of the buffer. *)
Theorem C23_offset_overflow_refuted :
  ~ (forall n esz ops, Forall (validOp n) ops -> let d := fold_left (runOp esz) ops (initDSG n) in
       dLen d <> 0 -> tilesBuffer (dSizes d) (dWith d) (dPtr d) (dLen d)).
Proof.
  intros H. specialize (H 3%nat 8 [OpOverwriteAndDelete [2 ^ 31; 2 ^ 31; 1]; OpCreate]).
  assert (V : Forall (validOp 3) [OpOverwriteAndDelete [2 ^ 31; 2 ^ 31; 1]; OpCreate]).
  { constructor; [|constructor; [exact I|constructor]]. split; auto. repeat constructor; lia. }
  specialize (H V ltac:(discriminate)). destruct H as (start & P & _ & Q & _).
  pose proof (P 0 ltac:(cbn; lia)) as P0. pose proof (P 2 ltac:(cbn; lia)) as P2. vm_compute in P0, P2. inv P0. inv P2.
  specialize (Q 0 2 ltac:(vm_compute; auto) ltac:(vm_compute; auto) ltac:(lia)). rewrite <- H0, <- H1 in Q. vm_compute in Q. now apply Q.
Qed.

(** Reading subspace sizes from a file changes the sizes of an allocated sparse grid without releasing the data; then the
    ranges overlap. *)
Theorem C23_sizes_from_file_refuted :
  ~ (forall n esz ops sizes, Forall (validOp n) ops -> length sizes = n -> Forall (fun s => 0 <= s < 2 ^ 32) sizes ->
       let d := overwriteSizes sizes (fold_left (runOp esz) ops (initDSG n)) in
       dLen d <> 0 -> dLen d < 2 ^ 32 -> tilesBuffer (dSizes d) (dWith d) (dPtr d) (dLen d)).
Proof.
  intros H. specialize (H 2%nat 8 [OpOverwriteAndDelete [1; 1]; OpCreate] [2; 1]).
  assert (V : Forall (validOp 2) [OpOverwriteAndDelete [1; 1]; OpCreate]).
  { constructor; [|constructor; [exact I|constructor]]. split; auto. repeat constructor; lia. }
  specialize (H V eq_refl ltac:(repeat constructor; lia) ltac:(discriminate) ltac:(vm_compute; reflexivity)).
  destruct H as (start & P & _ & Q & _).
  pose proof (P 0 ltac:(cbn; lia)) as P0. pose proof (P 1 ltac:(cbn; lia)) as P1. vm_compute in P0, P1. inv P0. inv P1.
  specialize (Q 0 1 ltac:(vm_compute; auto) ltac:(vm_compute; auto) ltac:(lia)). rewrite <- H0, <- H1 in Q. vm_compute in Q. now apply Q.
Qed.

(** A history with registration, allocation of a part, a change of sizes and a new allocation. *)
Example C23_ex :
  let d := fold_left (runOp 8) [OpSetSize 0 3; OpSetSize 2 4; OpCreate; OpWrite 1 (Q2Qc 5); OpSetSize 1 2; OpAllocate [1; 2]] (initDSG 4) in
  dLen d = 6 /\ dPtr d = [Some 0; Some 0; Some 2; Some 6] /\ dKLen d = 6 /\ dWith d = [1; 2].
Proof. vm_compute. auto. Qed.

(** ** C24: lookup with carried lower bound *)

(** A thread that gets its levels in ascending order finds for each of them its position, or -1 if the sparse grid does not
    have it; the sparse grid's first level must not come after any of the levels looked up (it is (1,...,1) in
    sparse grids made by the code). *)
Theorem C24_lookup_correct : forall dim first rest queries, sortedLevels dim (first :: rest) ->
  StronglySorted lexlt queries -> Forall (fun q => length q = dim /\ ~ lexlt q first) queries ->
  exists found, lookupThread (first :: rest) queries = Some found /\ Forall2 (isPosition (first :: rest)) queries found.
Proof.
  intros dim first rest queries HL HS HF. unfold lookupThread. rewrite (forLevelsThread_spec _ dim) by auto.
  eexists. split; [reflexivity|].
  assert (G : forall qs acc, fold_left (fun s q => s ++ [position (first :: rest) q]) qs acc = acc ++ map (position (first :: rest)) qs).
  { induction qs as [|q qs IH]; intros acc; cbn [fold_left map]; [now rewrite app_nil_r|]. rewrite IH, <- app_assoc. reflexivity. }
  rewrite G. cbn [app]. clear. induction queries; cbn [map]; constructor; auto using position_spec.
Qed.

(** Not right in general: if the first level of the sparse grid comes after a level that is looked up, the result -1 is carried
    on as lower bound, and the next search starts before the first level and reads there. *)
Theorem C24_missing_first_level_refuted :
  ~ (forall dim levels queries, sortedLevels dim levels -> StronglySorted lexlt queries -> Forall (fun q => length q = dim) queries ->
       exists found, lookupThread levels queries = Some found /\ Forall2 (isPosition levels) queries found).
Proof.
  intros H. destruct (H 1%nat [[2]] [[1]; [2]]) as (f & E & _).
  - split; repeat constructor.
  - repeat constructor.
  - repeat constructor.
  - vm_compute in E. discriminate.
Qed.

(** Not right under every way the iterations are handed out: OpenMP permits (since 5.0 as default for schedule(guided)) that a
    thread gets a later part of the iterations before an earlier one; then levels of the earlier part are not found. *)
Theorem C24_nonmonotonic_schedule_refuted :
  ~ (forall dim first rest queries, sortedLevels dim (first :: rest) -> Forall (fun q => length q = dim /\ ~ lexlt q first) queries ->
       exists found, lookupThread (first :: rest) queries = Some found /\ Forall2 (isPosition (first :: rest)) queries found).
Proof.
  intros H. destruct (H 1%nat [1] [[2]; [3]] [[3]; [1]]) as (f & E & F).
  - split; repeat constructor.
  - constructor; [|constructor; [|constructor]]; (split; [reflexivity|]); intros X; inv X; try lia; match goal with H : lexlt [] [] |- _ => inv H end.
  - vm_compute in E. injection E as <-. assert (X := proj1 (Forall2_nth_iff _ _ _ [] 0 _ _) F). destruct X as [_ X]. specialize (X 1%nat ltac:(cbn; lia)). destruct X as [[X _]|[_ X]]; [cbn in X; lia|]. apply X. now left.
Qed.

Example C24_ex : lookupThread [[1; 1]; [1; 2]; [2; 1]; [3; 1]] [[1; 1]; [1; 3]; [2; 1]; [2; 2]; [3; 1]] = Some [0; -1; 2; -1; 3].
Proof. vm_compute. reflexivity. Qed.

(** ** C25: scatter and gather *)

Definition cntOf (cs : list Comp) (l : list Z) : Z :=
  match find (fun c => if in_dec (list_eq_dec Z.eq_dec) l (getDownSet (gLevel (cGrid c))) then true else false) cs with
  | Some c => Z.of_nat (length (pointsOf c l))
  | None => 0
  end.

Lemma cntOf_spec : forall cs c l, agree cs -> In c cs -> containsL c l -> Z.of_nat (length (pointsOf c l)) = cntOf cs l.
Proof.
  intros cs c l HA Hc Hl. unfold cntOf. destruct (find _ cs) as [c'|] eqn:E.
  - apply find_some in E. destruct E as [Hc' E]. destruct (in_dec _ _ _) as [X|X]; [|discriminate]. apply downSet_contains in X.
    now rewrite (HA c c' l).
  - pose proof (find_none _ _ E c Hc) as X. cbv beta in X. destruct (in_dec _ _ _) as [Y|Y]; [discriminate|].
    exfalso. apply Y. now apply downSet_contains.
Qed.

Lemma cntOf_range : forall cs l, (forall c l, In c cs -> containsL c l -> Z.of_nat (length (pointsOf c l)) < 2 ^ 32) -> 0 <= cntOf cs l < 2 ^ 32.
Proof.
  intros cs l HB. unfold cntOf. destruct (find _ cs) as [c|] eqn:E; [|lia]. apply find_some in E. destruct E as [Hc E].
  destruct (in_dec _ _ _) as [X|X]; [|discriminate]. apply downSet_contains in X. specialize (HB c l Hc X). lia.
Qed.

Lemma accumulated_all : forall sizes, accumulatedSize sizes (zrange 0 (Z.of_nat (length sizes))) = zsum sizes.
Proof. intros. rewrite accumulated_zsum. apply nth_zrange_sum. Qed.

(** The weighted sum over the component grids that contain subspace [l] at its [j]-th point. *)
Definition weightedSum (cs : list Comp) (l : list Z) (j : Z) : Qc := qsum (map (contribution l j) cs).

(** Registering the component grids of a process, allocating, adding all of them and extracting again: registered sizes are
    the numbers of points, every subspace holds the weighted sums, and every component grid gets them at its points of the
    sparse grid's subspaces and keeps its values elsewhere. *)
Theorem C25_scatter_gather : forall fully esz dim rest cs, let levels := repeat 1 dim :: rest in
  sortedLevels dim levels -> Forall (Forall (Z.le 1)) levels -> Forall (goodComp dim) cs -> agree cs ->
  (forall c l, In c cs -> containsL c l -> Z.of_nat (length (pointsOf c l)) < 2 ^ 32) ->
  exists d1, registerAll levels cs (initDSG (length levels)) = Some d1 /\
    (forall i, 0 <= i < Z.of_nat (length levels) -> let l := nth (Z.to_nat i) levels [] in
       (forall c, In c cs -> containsL c l -> dataSize d1 i = Z.of_nat (length (pointsOf c l))) /\
       ((forall c, In c cs -> ~ containsL c l) -> dataSize d1 i = 0)) /\
    (zsum (dSizes d1) < 2 ^ 32 ->
     exists d2, addAll fully levels cs (createSubspaceData esz d1) = Some d2 /\
       (forall i, 0 <= i < Z.of_nat (length levels) -> exists start, nth (Z.to_nat i) (dPtr d2) None = Some start /\
          forall j, 0 <= j < dataSize d1 i -> dData d2 (start + j) = weightedSum cs (nth (Z.to_nat i) levels []) j) /\
       (forall c v0, In c cs -> exists v, extractDFG fully levels (cThreads c) d2 (cGrid c) v0 = Some v /\
          forall l j, containsL c l -> (j < length (pointsOf c l))%nat ->
            let k := nth j (pointsOf c l) 0 in
            (In l levels -> v k = weightedSum cs l (Z.of_nat j)) /\ (~ In l levels -> v k = v0 k))).
Proof.
  intros fully esz dim rest cs levels HL HP HG HA HB.
  destruct (registerAll_spec dim rest HL (cntOf cs) cs (initDSG (length levels)) (fun q => cntOf_range cs q HB) HG
    (fun c l H1 H2 => cntOf_spec cs c l HA H1 H2) (init_inv _)) as (d1 & E1 & I1 & W1 & _ & _ & S1 & S2).
  { intros i Hi. left. unfold dataSize, initDSG. cbn [dSizes]. apply nth_repeat. }
  fold levels in E1, I1, S1, S2. set (n := Z.of_nat (length levels)) in *.
  assert (S3 : forall i, 0 <= i < n -> forall c, In c cs -> containsL c (nth (Z.to_nat i) levels []) ->
     dataSize d1 i = Z.of_nat (length (pointsOf c (nth (Z.to_nat i) levels [])))).
  { intros i Hi c Hc Hl. rewrite (S1 i c) by auto. symmetry. now apply cntOf_spec. }
  exists d1. split; auto. split.
  { intros i Hi l. split; [now apply S3|]. intros HN. rewrite S2 by auto. unfold dataSize, initDSG. cbn [dSizes]. apply nth_repeat. }
  intros HT. pose proof I1 as (LS & _ & _ & _ & KI).
  assert (K0 : dKLen d1 = 0).
  { destruct (Z.eq_dec (dKLen d1) 0) as [|N]; auto. destruct (KI N) as [_ X]. rewrite W1 in X. cbn in X. congruence. }
  assert (CH : chosen d1 = zrange 0 n) by (unfold chosen; rewrite W1; cbn; unfold numSubspaces; now rewrite LS).
  destruct (create_ready dim rest esz d1 I1 K0) as (R & D2 & D3 & D4).
  { rewrite CH. unfold n. rewrite <- LS, accumulated_all. exact HT. }
  set (d' := createSubspaceData esz d1) in *. clearbody d'. fold levels in R.
  assert (WA : forall i, 0 <= i < n -> In i (dWith d')) by (intros i Hi; rewrite D3, CH; now apply zrange_In).
  assert (DS : forall i, dataSize d' i = dataSize d1 i) by (intros i; unfold dataSize; now rewrite D2).
  destruct (addAll_spec dim rest HL HP fully cs d' R HG (fun _ => WA)) as (d2 & E2 & Sh & K2 & V2).
  { intros c i Hc Hi Hl _ _. rewrite DS. symmetry. apply S3; auto. }
  fold levels in E2. exists d2. split; auto. pose proof (ready_same levels d' d2 R Sh K2) as R2. pose proof Sh as (H1 & H2 & H3 & _).
  assert (OF : forall i, off d2 i = off d' i) by (intros; unfold off; now rewrite H1, H2).
  assert (DS2 : forall i, dataSize d2 i = dataSize d1 i) by (intros i; unfold dataSize; now rewrite H1, D2).
  assert (V : forall i j, 0 <= i < n -> 0 <= j < dataSize d1 i -> dData d2 (off d' i + j) = weightedSum cs (nth (Z.to_nat i) levels []) j).
  { intros i j Hi Hj. rewrite V2; auto; [|now rewrite DS]. rewrite D4. unfold weightedSum. fold levels. ring. }
  split.
  - intros i Hi. exists (off d' i). split; [|intros j Hj; now apply V]. rewrite H3.
    pose proof R as ((Q1 & Q2 & Q3 & _) & LD & _ & LL & _). rewrite <- Q1 in Q3.
    destruct (laidOut_spec _ _ _ _ Q2 Q3 LD LL) as (P & _). apply P. unfold n in Hi. lia.
  - intros c v0 Hc. pose proof (proj1 (Forall_forall _ _) HG c Hc) as Gc.
    destruct (extract_spec dim rest HL fully d2 c v0 R2 Gc) as (v & Ev & X1 & X2).
    { intros _ i Hi. rewrite H2. now apply WA. }
    { intros i Hi Hl _ _. rewrite DS2. symmetry. now apply S3. }
    fold levels in Ev, X1, X2. exists v. split; auto. intros l j Hl Hj k. split.
    + intros Hin. destruct (position_In levels l Hin) as [P1 P2]. specialize (X1 (position levels l) (Z.of_nat j) P1).
      rewrite P2, Nat2Z.id in X1. unfold k. rewrite X1; auto.
      * rewrite OF, V, P2; auto. rewrite (S3 _ P1 c Hc) by now rewrite P2. rewrite P2. lia.
      * rewrite H2. now apply WA.
      * rewrite DS2, (S3 _ P1 c Hc) by now rewrite P2. rewrite P2. lia.
    + intros Hn. apply (X2 l); auto. now apply nth_In.
Qed.

(** One grid, coefficient one: extracting gives back every value at the points of the sparse grid's subspaces. *)
Theorem C25_roundtrip : forall fully esz dim rest c v0, let levels := repeat 1 dim :: rest in
  sortedLevels dim levels -> Forall (Forall (Z.le 1)) levels -> goodComp dim c -> cCoeff c = 1%Qc ->
  (forall l, containsL c l -> In l levels) -> (forall l, containsL c l -> Z.of_nat (length (pointsOf c l)) < 2 ^ 32) ->
  exists d1, registerDFG levels (cThreads c) (cGrid c) (initDSG (length levels)) = Some d1 /\
    (zsum (dSizes d1) < 2 ^ 32 ->
     exists d2 v, addDFG fully levels (cThreads c) (cGrid c) (cCoeff c) (cValues c) (createSubspaceData esz d1) = Some d2 /\
       extractDFG fully levels (cThreads c) d2 (cGrid c) v0 = Some v /\
       forall k, 0 <= k < zprod (gSizes (cGrid c)) -> v k = cValues c k).
Proof.
  intros fully esz dim rest c v0 levels HL HP G C1 HS HB.
  destruct (C25_scatter_gather fully esz dim rest [c] HL HP) as (d1 & E1 & _ & X).
  - constructor; [exact G|constructor].
  - intros a b l [<-|[]] [<-|[]]. auto.
  - intros c' l [<-|[]]. apply HB.
  - fold levels in E1, X. cbn [registerAll] in E1. destruct (registerDFG levels _ _ _) as [d|] eqn:Er; [|discriminate]. inv E1.
    exists d1. split; auto. intros HT. destruct (X HT) as (d2 & E2 & _ & Y). cbn [addAll] in E2.
    destruct (addDFG _ _ _ _ _ _ _) as [d'|] eqn:Ea; [|discriminate]. inv E2.
    destruct (Y c v0 (or_introl eq_refl)) as (v & Ev & V). exists d2, v. split; auto. split; auto. intros k Hk.
    pose proof G as (W & LC & _).
    assert (Hin : In k (flat_map (fgPointsOfSubspace (cGrid c)) (getDownSet (gLevel (cGrid c))))).
    { apply (Permutation_in _ (Permutation_sym (C06_subspaces_tile (cGrid c) W))). now apply zrange_In. }
    apply in_flat_map in Hin. destruct Hin as (l & Hl & Hk'). apply downSet_contains in Hl.
    apply (In_nth _ _ 0) in Hk'. destruct Hk' as (j & Hj & Ej). fold (pointsOf c l) in Hj, Ej.
    destruct (V l j Hl Hj) as [V1 _]. rewrite Ej in V1. rewrite V1 by auto. unfold weightedSum, contribution. cbn [map qsum fold_right].
    assert (VL : vleb l (gLevel (cGrid c)) = true) by (apply vleb_spec; [now apply containsL_length|now apply Forall2_weak]).
    rewrite VL, Nat2Z.id, Ej, C1. ring.
Qed.

(** Witness: two component grids of levels (2,1) and (1,2) on one process, one-sided and two-sided boundary. *)
Definition exComp (L : list Z) (c : Qc) (v : arr) (ts : list (list (list Z))) : Comp :=
  {| cGrid := {| gLevel := L; gBnd := [2; 1]; gLower := [0; 0]; gUpper := [2 ^ nth 0 L 0 + 1; 2 ^ nth 1 L 0] |};
     cCoeff := c; cValues := v; cThreads := ts |}.
Definition exC1 := exComp [2; 1] 1%Qc (fun k => Q2Qc (inject_Z k)) [[[1; 1]]; [[2; 1]]].
Definition exC2 := exComp [1; 2] (Q2Qc (-1 # 1)) (fun k => Q2Qc (inject_Z (100 + k))) [[[1; 1]; [1; 2]]].
Definition exLevels := [[1; 1]; [1; 2]; [2; 1]].

Example C25_ex_hyps : sortedLevels 2 exLevels /\ Forall (Forall (Z.le 1)) exLevels /\ Forall (goodComp 2) [exC1; exC2] /\ agree [exC1; exC2].
Proof.
  split; [|split; [|split]].
  - split; repeat constructor; lia.
  - repeat constructor; lia.
  - constructor; [|constructor; [|constructor]]; (split; [|split; [|split]]); try reflexivity; try (repeat constructor; lia);
      try (repeat (split; [reflexivity|]); intros [|[|i]] Hi; cbn in *; lia); vm_compute; apply Permutation_refl.
  - assert (K : forall l, containsL exC1 l -> containsL exC2 l -> l = [1; 1]).
    { intros l A B. unfold containsL in *. cbn in A, B. inv A. inv H3. inv H5. inv B. inv H6. inv H8. repeat f_equal; lia. }
    intros a b l [<-|[<-|[]]] [<-|[<-|[]]] A B; auto; [rewrite (K l A B)|rewrite (K l B A)]; reflexivity.
Qed.
Example C25_ex_values :
  match registerAll exLevels [exC1; exC2] (initDSG 3) with
  | Some d1 => dSizes d1 = [6; 6; 4] /\
      match addAll true exLevels [exC1; exC2] (createSubspaceData 8 d1) with
      | Some d2 => dData d2 0 = Q2Qc (-100 # 1) /\ dData d2 1 = Q2Qc (-99 # 1) /\ dData d2 6 = Q2Qc (-103 # 1) /\ dData d2 12 = Q2Qc 1
      | None => False
      end
  | None => False
  end.
Proof. vm_compute. repeat split; apply Qc_is_canon; reflexivity. Qed.

(** ** C49: Kahan summation in exact arithmetic *)

(** A history: operations on the storage and additions of full grids. *)
Inductive event := EvOp (o : dsgOp) | EvAdd (fully : bool) (levels : list (list Z)) (threads : list (list (list Z))) (g : Grid) (coeff : Qc) (values : arr).
Definition runEvent (esz : Z) (d : option DSG) (e : event) : option DSG :=
  match d with
  | None => None
  | Some d => match e with
              | EvOp o => Some (runOp esz d o)
              | EvAdd fully levels threads g coeff values => addDFG fully levels threads g coeff values d
              end
  end.

Definition kGood (d : DSG) : Prop := kzero d /\ forall i, 0 <= ptrOf (dKPtr d) i.

Lemma layout_nonneg : forall sizes i off w k, 0 <= off -> 0 <= ptrOf (layout sizes i off w) k.
Proof.
  unfold ptrOf. intros sizes i off w k H. generalize (Z.to_nat k). clear k. revert i off H.
  induction sizes as [|s sizes IH]; intros i off H k; cbn [layout].
  - destruct k; cbn; lia.
  - destruct k as [|k]; cbn [nth]; auto. apply IH. destruct (memZ i w); auto. unfold u32. apply Z.mod_pos_bound. lia.
Qed.

Lemma ptrOf_none : forall (l : list (option Z)) i, ptrOf (map (fun _ => None) l) i = 0.
Proof.
  intros l i. unfold ptrOf. generalize (Z.to_nat i). induction l as [|x l IH]; intros k; destruct k; cbn; auto.
Qed.

Lemma createKahan_good : forall esz d, kGood d -> kGood (createKahanBuffer esz d).
Proof.
  intros esz d [K P]. split; [|intros i; cbn; apply layout_nonneg; lia]. intros k Hk. cbn. unfold resizeZero.
  destruct (_ <=? _); auto. destruct (_ <? _); auto.
Qed.

Lemma delete_good : forall d, kGood d -> kGood (deleteSubspaceData d).
Proof. intros d _. split; [intros k _; reflexivity|]. intros i. cbn. rewrite ptrOf_none. lia. Qed.

Lemma setSize_good : forall i s d, kGood d -> kGood (setDataSize i s d).
Proof. intros i s d G. unfold setDataSize. destruct (_ =? _); [exact G|exact (delete_good d G)]. Qed.

Lemma create_good : forall esz d, kGood d -> kGood (createSubspaceData esz d).
Proof. intros esz d G. unfold createSubspaceData. cbv zeta. match goal with |- context [if ?b then _ else _] => destruct b end; [|exact G].
  apply createKahan_good. exact G. Qed.

Lemma runOp_good : forall esz d o, kGood d -> kGood (runOp esz d o).
Proof.
  intros esz d o G. destruct o; cbn [runOp]; try exact G.
  - now apply create_good.
  - now apply createKahan_good.
  - now apply delete_good.
  - split; [intros k _; reflexivity|apply G].
  - apply createKahan_good, create_good. exact G.
  - now apply setSize_good.
  - unfold maxReduceSubspaceSizes. apply delete_good. generalize (zrange 0 (numSubspaces d)). intros l. revert d G.
    induction l as [|i l IH]; intros d G; cbn [fold_left]; auto. apply IH. now apply setSize_good.
  - apply delete_good. exact G.
Qed.

(** The specification: adding without compensation. *)
Fixpoint addPointsPlain (coeff : Qc) (values : arr) (points : list Z) (sp : Z) (data : arr) : arr :=
  match points with [] => data | p :: ps => addPointsPlain coeff values ps (sp + 1) (setA data sp (data sp + coeff * values p)%Qc) end.
Definition addBodyPlain (fully : bool) (d0 : DSG) (g : Grid) (coeff : Qc) (values : arr) (i : Z) (l : list Z) (data : arr) : arr :=
  if shouldBeCopied fully d0 i then addPointsPlain coeff values (fgPointsOfSubspace g l) (ptrOf (dPtr d0) i) data else data.

Lemma addPointsPlain_ext : forall c v ps sp a b, (forall k, a k = b k) -> forall k, addPointsPlain c v ps sp a k = addPointsPlain c v ps sp b k.
Proof.
  intros c v. induction ps as [|p ps IH]; intros sp a b H k; cbn [addPointsPlain]; auto. apply IH. intros x. unfold setA. rewrite H.
  destruct (x =? sp); auto.
Qed.

Lemma addPoints_plain : forall c v ps sp kp d, kzero d -> 0 <= kp ->
  let d' := addPoints c v ps sp kp d in
  sameShape d d' /\ kzero d' /\ forall k, dData d' k = addPointsPlain c v ps sp (dData d) k.
Proof.
  intros c v ps sp kp d K P. destruct (addPoints_spec c v ps sp kp d K P) as (A & B & _). split; auto. split; auto.
  clear A B. revert sp kp d K P. induction ps as [|p ps IH]; intros sp kp d K P k; cbn [addPointsR addPointsPlain]; auto.
  rewrite IH; [|intros x Hx; cbn; unfold setA; destruct (x =? kp); [ring|now apply K]|lia].
  apply addPointsPlain_ext. intros x. cbn. unfold setA. destruct (x =? sp); auto. rewrite K by auto. ring.
Qed.

Lemma forLevelsThread_rel : forall {S T : Type} (R : S -> T -> Prop) f g levels qs index s t,
  (forall i q s t, R s t -> R (f i q s) (g i q t)) -> R s t ->
  match forLevelsThread f levels qs index s, forLevelsThread g levels qs index t with
  | Some s', Some t' => R s' t' | None, None => True | _, _ => False end.
Proof.
  intros S T R f g levels. induction qs as [|q qs IH]; intros index s t H HR; cbn [forLevelsThread]; auto.
  destruct (getIndexInRange levels q index); [|exact I]. apply IH; auto.
Qed.

Lemma forLevels_rel : forall {S T : Type} (R : S -> T -> Prop) f g levels threads s t,
  (forall i q s t, R s t -> R (f i q s) (g i q t)) -> R s t ->
  match forLevels f levels threads s, forLevels g levels threads t with
  | Some s', Some t' => R s' t' | None, None => True | _, _ => False end.
Proof.
  intros S T R f g levels. induction threads as [|th threads IH]; intros s t H HR; cbn [forLevels]; auto.
  pose proof (forLevelsThread_rel R f g levels th 0 s t H HR) as X.
  destruct (forLevelsThread f levels th 0 s), (forLevelsThread g levels th 0 t); try contradiction; [apply IH; auto|exact I].
Qed.

Lemma add_rel : forall fully levels threads g c v d, kGood d ->
  match addDFG fully levels threads g c v d, forLevels (addBodyPlain fully d g c v) levels threads (dData d) with
  | Some d', Some a => sameShape d d' /\ kGood d' /\ forall k, dData d' k = a k
  | None, None => True | _, _ => False end.
Proof.
  intros fully levels threads g c v d G.
  apply (forLevels_rel (fun d' a => sameShape d d' /\ kGood d' /\ forall k, dData d' k = a k)).
  - intros i q s t (Sh & [K P] & D). unfold addBodyR, addBodyPlain. pose proof Sh as (S1 & S2 & S3 & _).
    assert (E : shouldBeCopied fully s i = shouldBeCopied fully d i) by (unfold shouldBeCopied, dataSize; now rewrite S1, S2).
    rewrite E, S3. destruct (shouldBeCopied fully d i); [|split; auto; split; [split|]; auto].
    destruct (addPoints_plain c v (fgPointsOfSubspace g q) (ptrOf (dPtr d) i) (ptrOf (dKPtr s) i) s K (P i)) as (A & B & C).
    split; [eapply sameShape_trans; eauto|]. split.
    + split; auto. destruct A as (_ & _ & _ & _ & A & _). intros j. rewrite A. apply P.
    + intros k. rewrite C. now apply addPointsPlain_ext.
  - split; [apply sameShape_refl|]. auto.
Qed.

(** After any history the compensation terms are zero, and the next addition has the effect of plain additions on every
    element of the buffer. *)
Theorem C49_compensation_zero : forall esz n history d, fold_left (runEvent esz) history (Some (initDSG n)) = Some d ->
  (forall k, 0 <= k -> dKahan d k = 0%Qc) /\
  forall fully levels threads g coeff values d', addDFG fully levels threads g coeff values d = Some d' ->
    exists data, forLevels (addBodyPlain fully d g coeff values) levels threads (dData d) = Some data /\ forall k, dData d' k = data k.
Proof.
  intros esz n history d H. assert (G : kGood d).
  { assert (X : forall hist s, match s with Some s => kGood s | None => True end ->
       match fold_left (runEvent esz) hist s with Some s => kGood s | None => True end).
    { induction hist as [|e hist IH]; intros s Hs; cbn [fold_left]; auto. apply IH. destruct s as [s|]; cbn [runEvent]; auto.
      destruct e; [now apply runOp_good|]. pose proof (add_rel fully levels threads g coeff values s Hs) as X.
      destruct (addDFG _ _ _ _ _ _ _); auto. destruct (forLevels (addBodyPlain _ _ _ _ _) _ _ _); [apply X|contradiction]. }
    specialize (X history (Some (initDSG n))). rewrite H in X. apply X. split; [intros k _; reflexivity|].
    intros i. unfold ptrOf, initDSG. cbn [dKPtr]. rewrite nth_repeat. lia. }
  split; [apply G|]. intros fully levels threads g c v d' E. pose proof (add_rel fully levels threads g c v d G) as X. rewrite E in X.
  destruct (forLevels (addBodyPlain _ _ _ _ _) _ _ _) as [a|]; [|contradiction]. exists a. split; auto. apply X.
Qed.

Example C49_ex :
  match fold_left (runEvent 8) [EvOp (OpSetSize 0 6); EvOp (OpSetSize 2 4); EvOp OpCreate;
                                EvAdd true exLevels [[[1; 1]]; [[2; 1]]] (cGrid exC1) (Q2Qc (1 # 3)) (cValues exC1);
                                EvAdd true exLevels [[[1; 1]; [2; 1]]] (cGrid exC1) (Q2Qc (1 # 7)) (cValues exC1)] (Some (initDSG 3)) with
  | Some d => dData d 1 = Q2Qc (20 # 21) /\ dData d 7 = Q2Qc (10 # 7) /\ dKahan d 7 = 0%Qc
  | None => False
  end.
Proof. vm_compute. repeat split; apply Qc_is_canon; reflexivity. Qed.

(** ** C50: minimum and maximum coefficients *)

Lemma qmin_spec : forall a b, (qmin a b = a \/ qmin a b = b) /\ (qmin a b <= a)%Qc /\ (qmin a b <= b)%Qc.
Proof.
  intros a b. unfold qmin. destruct (b ?= a)%Qc eqn:E.
  - apply Qceq_alt in E. subst. split; auto. split; apply Qcle_refl.
  - apply Qclt_alt in E. split; auto. split; [apply Qclt_le_weak; auto|apply Qcle_refl].
  - apply Qcgt_alt in E. split; auto. split; [apply Qcle_refl|apply Qclt_le_weak; auto].
Qed.
Lemma qmax_spec : forall a b, (qmax a b = a \/ qmax a b = b) /\ (a <= qmax a b)%Qc /\ (b <= qmax a b)%Qc.
Proof.
  intros a b. unfold qmax. destruct (a ?= b)%Qc eqn:E.
  - apply Qceq_alt in E. subst. split; auto. split; apply Qcle_refl.
  - apply Qclt_alt in E. split; auto. split; [apply Qclt_le_weak; auto|apply Qcle_refl].
  - apply Qcgt_alt in E. split; auto. split; [apply Qcle_refl|apply Qclt_le_weak; auto].
Qed.

(** The values of subspace [i] a sparse grid holds. *)
Definition valuesOf (i : Z) (d : DSG) : list Qc :=
  if memZ i (dWith d) && (dataSize d i >? 0) then map (dData d) (zrange (ptrOf (dPtr d) i) (ptrOf (dPtr d) i + dataSize d i)) else [].

Definition isMin (m : Qc) (l : list Qc) : Prop := In m l /\ forall x, In x l -> (m <= x)%Qc.
Definition isMax (m : Qc) (l : list Qc) : Prop := In m l /\ forall x, In x l -> (x <= m)%Qc.

(** The extreme values after the sparse grid was seen in the states [ds], one after the other. *)
Fixpoint minMaxHistory (st : option (list Qc * list Qc)) (ds : list DSG) : option (list Qc * list Qc) :=
  match ds with [] => st | d :: ds' => minMaxHistory (Some (accumulateMinMax d st)) ds' end.

Lemma foldMin : forall (f : Z -> Qc) l a, isMin (fold_left (fun m k => qmin m (f k)) l a) (a :: map f l).
Proof.
  intros f. induction l as [|k l IH]; intros a; cbn [fold_left map].
  - split; [now left|]. intros x [<-|[]]. apply Qcle_refl.
  - destruct (IH (qmin a (f k))) as [I1 I2]. destruct (qmin_spec a (f k)) as ([E|E] & L1 & L2).
    + split.
      * destruct I1 as [I1|I1]; [left; congruence|right; now right].
      * intros x [<-|[<-|Hx]]; [eapply Qcle_trans; [apply I2; now left|auto]|eapply Qcle_trans; [apply I2; now left|auto]|apply I2; now right].
    + split.
      * destruct I1 as [I1|I1]; [right; left; congruence|right; now right].
      * intros x [<-|[<-|Hx]]; [eapply Qcle_trans; [apply I2; now left|auto]|eapply Qcle_trans; [apply I2; now left|auto]|apply I2; now right].
Qed.
Lemma foldMax : forall (f : Z -> Qc) l a, isMax (fold_left (fun m k => qmax m (f k)) l a) (a :: map f l).
Proof.
  intros f. induction l as [|k l IH]; intros a; cbn [fold_left map].
  - split; [now left|]. intros x [<-|[]]. apply Qcle_refl.
  - destruct (IH (qmax a (f k))) as [I1 I2]. destruct (qmax_spec a (f k)) as ([E|E] & L1 & L2).
    + split.
      * destruct I1 as [I1|I1]; [left; congruence|right; now right].
      * intros x [<-|[<-|Hx]]; [eapply Qcle_trans; [|apply I2; now left]; auto|eapply Qcle_trans; [|apply I2; now left]; auto|apply I2; now right].
    + split.
      * destruct I1 as [I1|I1]; [right; left; congruence|right; now right].
      * intros x [<-|[<-|Hx]]; [eapply Qcle_trans; [|apply I2; now left]; auto|eapply Qcle_trans; [|apply I2; now left]; auto|apply I2; now right].
Qed.

Lemma minElement_spec : forall a first size, 0 < size -> isMin (minElementOf a first size) (map a (zrange first (first + size))).
Proof. intros a first size H. rewrite zrange_cons by lia. cbn [map]. apply foldMin. Qed.
Lemma maxElement_spec : forall a first size, 0 < size -> isMax (maxElementOf a first size) (map a (zrange first (first + size))).
Proof. intros a first size H. rewrite zrange_cons by lia. cbn [map]. apply foldMax. Qed.

Lemma accumulate_fold : forall d w m, NoDup w -> (forall i, In i w -> 0 <= i < Z.of_nat (length (fst m)) /\ 0 <= i < Z.of_nat (length (snd m))) ->
  let m' := fold_left (accStep d) w m in
  length (fst m') = length (fst m) /\ length (snd m') = length (snd m) /\
  forall i, 0 <= i ->
    (memZ i w && (dataSize d i >? 0) = true ->
       nth (Z.to_nat i) (fst m') 0%Qc = qmin (nth (Z.to_nat i) (fst m) 0%Qc) (minElementOf (dData d) (ptrOf (dPtr d) i) (dataSize d i)) /\
       nth (Z.to_nat i) (snd m') 0%Qc = qmax (nth (Z.to_nat i) (snd m) 0%Qc) (maxElementOf (dData d) (ptrOf (dPtr d) i) (dataSize d i))) /\
    (memZ i w && (dataSize d i >? 0) = false ->
       nth (Z.to_nat i) (fst m') 0%Qc = nth (Z.to_nat i) (fst m) 0%Qc /\ nth (Z.to_nat i) (snd m') 0%Qc = nth (Z.to_nat i) (snd m) 0%Qc).
Proof.
  intros d. induction w as [|k w IH]; intros m ND HR; cbn [fold_left].
  { split; auto. split; auto. intros i Hi. split; [discriminate|auto]. }
  inv ND. set (m1 := accStep d m k).
  destruct (HR k (or_introl eq_refl)) as [R1 R2].
  assert (L1 : length (fst m1) = length (fst m) /\ length (snd m1) = length (snd m))
    by (unfold m1, accStep; destruct (dataSize d k >? 0); cbn [fst snd]; rewrite ?upd_length; auto).
  destruct L1 as [L1 L2].
  destruct (IH m1 H2) as (J1 & J2 & J3). { intros i Hi. rewrite L1, L2. apply HR. now right. }
  split; [transitivity (length (fst m1)); [exact J1|exact L1]|]. split; [transitivity (length (snd m1)); [exact J2|exact L2]|].
  intros i Hi. destruct (J3 i Hi) as [J4 J5].
  assert (E1 : i <> k -> nth (Z.to_nat i) (fst m1) 0%Qc = nth (Z.to_nat i) (fst m) 0%Qc /\ nth (Z.to_nat i) (snd m1) 0%Qc = nth (Z.to_nat i) (snd m) 0%Qc).
  { intros N. unfold m1, accStep. destruct (dataSize d k >? 0); cbn [fst snd]; auto. rewrite !nth_upd_other by lia. auto. }
  cbn [memZ existsb]. fold (memZ i w). destruct (Z.eqb_spec i k) as [->|N]; cbn [orb].
  - assert (M : memZ k w = false) by (destruct (memZ k w) eqn:M; auto; apply memZ_In in M; contradiction).
    rewrite M in J5. destruct (J5 eq_refl) as [-> ->]. unfold m1, accStep. cbn [andb].
    destruct (dataSize d k >? 0); split; intros X; try discriminate; auto. cbn [fst snd]. rewrite !nth_upd_same by lia. auto.
  - destruct (E1 N) as [<- <-]. auto.
Qed.

Lemma accumulate_spec : forall d st n, length (dSizes d) = n -> goodSet (Z.of_nat n) (dWith d) ->
  (match st with Some m => length (fst m) = n /\ length (snd m) = n | None => True end) ->
  let m0 := match st with Some m => m | None => (repeat dblMax n, repeat dblMin n) end in
  let m' := accumulateMinMax d st in
  length (fst m') = n /\ length (snd m') = n /\
  forall i, 0 <= i < Z.of_nat n ->
    let old1 := nth (Z.to_nat i) (fst m0) 0%Qc in let old2 := nth (Z.to_nat i) (snd m0) 0%Qc in
    isMin (nth (Z.to_nat i) (fst m') 0%Qc) (old1 :: valuesOf i d) /\ isMax (nth (Z.to_nat i) (snd m') 0%Qc) (old2 :: valuesOf i d).
Proof.
  intros d st n Hn [HG1 HG2] HS m0 m'.
  assert (ND : NoDup (dWith d)).
  { clear -HG1. induction HG1; constructor; auto. rewrite Forall_forall in H. intros X. specialize (H _ X). lia. }
  assert (M0 : length (fst m0) = n /\ length (snd m0) = n) by (unfold m0; destruct st; auto; cbn [fst snd]; rewrite !repeat_length; auto).
  destruct M0 as [M1 M2].
  destruct (accumulate_fold d (dWith d) m0 ND) as (A1 & A2 & A3). { intros i Hi. rewrite M1, M2. auto. }
  assert (E : m' = fold_left (accStep d) (dWith d) m0) by (unfold m', accumulateMinMax, m0; rewrite Hn; reflexivity).
  rewrite E. split; [congruence|]. split; [congruence|]. intros i Hi old1 old2. destruct (A3 i ltac:(lia)) as [B1 B2]. unfold valuesOf.
  destruct (memZ i (dWith d) && (dataSize d i >? 0)) eqn:C.
  - destruct (B1 eq_refl) as [-> ->]. apply andb_true_iff in C. destruct C as [_ C]. rewrite Z.gtb_lt in C. fold old1 old2.
    destruct (minElement_spec (dData d) (ptrOf (dPtr d) i) _ C) as [N1 N2]. destruct (maxElement_spec (dData d) (ptrOf (dPtr d) i) _ C) as [X1 X2].
    destruct (qmin_spec old1 (minElementOf (dData d) (ptrOf (dPtr d) i) (dataSize d i))) as (Q1 & Q2 & Q3).
    destruct (qmax_spec old2 (maxElementOf (dData d) (ptrOf (dPtr d) i) (dataSize d i))) as (Q4 & Q5 & Q6). split; split.
    + destruct Q1 as [->| ->]; [now left|now right].
    + intros x [<-|Hx]; auto. eapply Qcle_trans; [exact Q3|auto].
    + destruct Q4 as [->| ->]; [now left|now right].
    + intros x [<-|Hx]; auto. eapply Qcle_trans; [|exact Q6]. auto.
  - destruct (B2 eq_refl) as [-> ->]. fold old1 old2. split; (split; [now left|]); intros x [<-|[]]; apply Qcle_refl.
Qed.

Lemma minMax_spec : forall n ds st, Forall (fun d => length (dSizes d) = n /\ goodSet (Z.of_nat n) (dWith d)) ds ->
  (match st with Some m => length (fst m) = n /\ length (snd m) = n | None => True end) ->
  let m0 := match st with Some m => m | None => (repeat dblMax n, repeat dblMin n) end in
  let m' := match minMaxHistory st ds with Some m => m | None => m0 end in
  forall i, 0 <= i < Z.of_nat n ->
    isMin (nth (Z.to_nat i) (fst m') 0%Qc) (nth (Z.to_nat i) (fst m0) 0%Qc :: flat_map (valuesOf i) ds) /\
    isMax (nth (Z.to_nat i) (snd m') 0%Qc) (nth (Z.to_nat i) (snd m0) 0%Qc :: flat_map (valuesOf i) ds).
Proof.
  intros n. induction ds as [|d ds IH]; intros st HF HS m0 m' i Hi.
  - unfold m', m0. cbn [minMaxHistory flat_map]. destruct st as [m|]; (split; split; [now left|intros x [<-|[]]; apply Qcle_refl|now left|intros x [<-|[]]; apply Qcle_refl]).
  - inv HF. destruct H1 as [Hn HG]. destruct (accumulate_spec d st n Hn HG HS) as (L1 & L2 & A). fold m0 in A. specialize (A i Hi). cbv zeta in A.
    destruct A as [[A1 A2] [A3 A4]].
    specialize (IH (Some (accumulateMinMax d st)) H2 (conj L1 L2)). cbv zeta in IH. specialize (IH i Hi).
    assert (E : m' = match minMaxHistory (Some (accumulateMinMax d st)) ds with Some m => m | None => accumulateMinMax d st end).
    { unfold m'. cbn [minMaxHistory]. clear. destruct (minMaxHistory (Some (accumulateMinMax d st)) ds) eqn:E; auto. exfalso.
      revert E. generalize (accumulateMinMax d st). clear. induction ds as [|d' ds IH]; intros p; cbn [minMaxHistory]; [discriminate|apply IH]. }
    rewrite E. destruct IH as [[I1 I2] [I3 I4]]. cbn [flat_map]. split; split.
    + destruct I1 as [I1|I1]; [|right; apply in_or_app; now right]. rewrite <- I1. destruct A1 as [A1|A1]; [now left|right; apply in_or_app; now left].
    + intros x [<-|Hx]; [|apply in_app_or in Hx; destruct Hx as [Hx|Hx]].
      * eapply Qcle_trans; [apply I2; now left|]. apply A2. now left.
      * eapply Qcle_trans; [apply I2; now left|]. apply A2. now right.
      * apply I2. now right.
    + destruct I3 as [I3|I3]; [|right; apply in_or_app; now right]. rewrite <- I3. destruct A3 as [A3|A3]; [now left|right; apply in_or_app; now left].
    + intros x [<-|Hx]; [|apply in_app_or in Hx; destruct Hx as [Hx|Hx]].
      * eapply Qcle_trans; [|apply I4; now left]. apply A4. now left.
      * eapply Qcle_trans; [|apply I4; now left]. apply A4. now right.
      * apply I4. now right.
Qed.

Lemma history_Some : forall ds st m, minMaxHistory st ds = Some m -> st = None -> ds <> [] .
Proof. intros [|d ds] st m E ->; [discriminate|discriminate]. Qed.

(** The minima are right: over any history, the reported minimum of a subspace is the least value it ever held. *)
Theorem C50_min_correct : forall n ds m i, Forall (fun d => length (dSizes d) = n /\ goodSet (Z.of_nat n) (dWith d)) ds ->
  minMaxHistory None ds = Some m -> 0 <= i < Z.of_nat n -> flat_map (valuesOf i) ds <> [] ->
  Forall (fun x => x <= dblMax)%Qc (flat_map (valuesOf i) ds) ->
  isMin (nth (Z.to_nat i) (fst m) 0%Qc) (flat_map (valuesOf i) ds).
Proof.
  intros n ds m i HF E Hi NE HB. pose proof (minMax_spec n ds None HF I i Hi) as X. cbv zeta in X. rewrite E in X.
  destruct X as [[[X1|X1] X2] _]; [|split; auto; intros x Hx; apply X2; now right].
  cbn [fst] in X1. rewrite (nth_indep _ 0%Qc dblMax), nth_repeat in X1 by (rewrite repeat_length; lia).
  assert (Y : forall x, In x (flat_map (valuesOf i) ds) -> x = nth (Z.to_nat i) (fst m) 0%Qc).
  { intros x Hx. apply Qcle_antisym; [|apply X2; now right]. rewrite <- X1. rewrite Forall_forall in HB. auto. }
  split; [|intros x Hx; apply X2; now right]. destruct (flat_map (valuesOf i) ds) as [|x l]; [contradiction|].
  left. apply Y. now left.
Qed.

(** The maxima are right only if some value is at least the smallest positive normal number (missing: all other histories). *)
Theorem C50_max_partial : forall n ds m i, Forall (fun d => length (dSizes d) = n /\ goodSet (Z.of_nat n) (dWith d)) ds ->
  minMaxHistory None ds = Some m -> 0 <= i < Z.of_nat n ->
  (exists x, In x (flat_map (valuesOf i) ds) /\ dblMin <= x)%Qc ->
  isMax (nth (Z.to_nat i) (snd m) 0%Qc) (flat_map (valuesOf i) ds).
Proof.
  intros n ds m i HF E Hi (x & Hx & Hm). pose proof (minMax_spec n ds None HF I i Hi) as X. cbv zeta in X. rewrite E in X.
  destruct X as [_ [[X1|X1] X2]]; [|split; auto; intros y Hy; apply X2; now right].
  cbn [snd] in X1. rewrite (nth_indep _ 0%Qc dblMin), nth_repeat in X1 by (rewrite repeat_length; lia).
  assert (Y : x = nth (Z.to_nat i) (snd m) 0%Qc).
  { apply Qcle_antisym; [apply X2; now right|]. rewrite <- X1. auto. }
  rewrite <- Y in *. split; auto. intros y Hy. apply X2. now right.
Qed.

(** With negative values only, the reported maximum is a value that never occurred. *)
Definition exNeg : DSG := fold_left (runOp 8) [OpSetSize 0 2; OpCreate; OpWrite 0 (Q2Qc (-1 # 1)); OpWrite 1 (Q2Qc (-2 # 1))] (initDSG 1).
Theorem C50_max_refuted :
  ~ (forall n ds m i, Forall (fun d => length (dSizes d) = n /\ goodSet (Z.of_nat n) (dWith d)) ds ->
       minMaxHistory None ds = Some m -> 0 <= i < Z.of_nat n -> flat_map (valuesOf i) ds <> [] ->
       isMax (nth (Z.to_nat i) (snd m) 0%Qc) (flat_map (valuesOf i) ds)).
Proof.
  intros H. specialize (H 1%nat [exNeg] (accumulateMinMax exNeg None) 0).
  assert (V : flat_map (valuesOf 0) [exNeg] = [Q2Qc (-1 # 1); Q2Qc (-2 # 1)]) by reflexivity.
  rewrite V in H. destruct H as [X _].
  - constructor; [|constructor]. split; [reflexivity|]. split; [vm_compute; repeat constructor|]. intros i Hi. vm_compute in Hi. destruct Hi as [<-|[]]. cbn. lia.
  - reflexivity.
  - lia.
  - discriminate.
  - assert (E : nth (Z.to_nat 0) (snd (accumulateMinMax exNeg None)) 0%Qc = dblMin) by (apply Qc_is_canon; vm_compute; reflexivity).
    rewrite E in X. destruct X as [X|[X|[]]]; apply (f_equal (fun q => Qle_bool 0 (this q))) in X; vm_compute in X; discriminate.
Qed.

Example C50_ex : isMin (nth 0 (fst (accumulateMinMax exNeg None)) 0%Qc) [Q2Qc (-1 # 1); Q2Qc (-2 # 1)].
Proof.
  assert (E : nth 0 (fst (accumulateMinMax exNeg None)) 0%Qc = Q2Qc (-2 # 1)) by (apply Qc_is_canon; vm_compute; reflexivity).
  rewrite E. split; [right; now left|]. intros x [<-|[<-|[]]]; vm_compute; discriminate.
Qed.

Print Assumptions C23_layout.
Print Assumptions C23_offset_overflow_refuted.
Print Assumptions C23_sizes_from_file_refuted.
Print Assumptions C24_lookup_correct.
Print Assumptions C24_missing_first_level_refuted.
Print Assumptions C24_nonmonotonic_schedule_refuted.
Print Assumptions C25_scatter_gather.
Print Assumptions C25_roundtrip.
Print Assumptions C49_compensation_zero.
Print Assumptions C50_min_correct.
Print Assumptions C50_max_partial.
Print Assumptions C50_max_refuted.
