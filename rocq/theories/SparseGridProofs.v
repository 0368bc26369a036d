(** Proofs about SparseGridModel.v: storage and lookup. *)
From Verif Require Import Base TensorModel TensorProofs DofProofs Level1dModel Level1dProofs LevelSetsModel LevelSetsProofs SubspaceModel
  CombiSchemeModel CombiSchemeProofs Hier1dModel SparseGridModel.
From Coq Require Import QArith Qcanon.
Open Scope Z_scope.
Ltac Zify.zify_post_hook ::= idtac.

(** ** Storage *)

Lemma memZ_In : forall x l, memZ x l = true <-> In x l.
Proof.
  intros x l. unfold memZ. rewrite existsb_exists. split.
  - intros (y & H & E). apply Z.eqb_eq in E. now subst.
  - intros H. exists x. split; auto. apply Z.eqb_refl.
Qed.

(** Sum of the sizes of the chosen subspaces before index [i]. *)
Definition before (sizes w : list Z) (i : Z) : Z :=
  zsum (map (fun j => if memZ j w then nth (Z.to_nat j) sizes 0 else 0) (zrange 0 i)).

Lemma before_0 : forall sizes w, before sizes w 0 = 0.
Proof. reflexivity. Qed.

Lemma before_S : forall sizes w i, 0 <= i ->
  before sizes w (i + 1) = before sizes w i + (if memZ i w then nth (Z.to_nat i) sizes 0 else 0).
Proof.
  intros sizes w i Hi. unfold before. rewrite (zrange_snoc 0 (i + 1)) by lia. replace (i + 1 - 1) with i by lia.
  rewrite map_app, zsum_app. cbn [map]. rewrite zsum_cons. change (zsum []) with 0. lia.
Qed.

Lemma before_mono : forall sizes w i j, Forall (Z.le 0) sizes -> 0 <= i <= j -> before sizes w i <= before sizes w j.
Proof.
  intros sizes w i j HS Hij. replace j with (i + Z.of_nat (Z.to_nat (j - i))) by lia.
  induction (Z.to_nat (j - i)) as [|k IH]; [rewrite Z.add_0_r; lia|].
  replace (i + Z.of_nat (S k)) with (i + Z.of_nat k + 1) by lia. rewrite before_S by lia.
  assert (0 <= nth (Z.to_nat (i + Z.of_nat k)) sizes 0).
  { destruct (Nat.lt_ge_cases (Z.to_nat (i + Z.of_nat k)) (length sizes)) as [H|H].
    - rewrite Forall_forall in HS. apply HS. now apply nth_In.
    - rewrite nth_overflow by lia. lia. }
  destruct (memZ _ _); lia.
Qed.

Definition goodSet (n : Z) (w : list Z) : Prop := StronglySorted Z.lt w /\ forall i, In i w -> 0 <= i < n.

Lemma accumulated_zsum : forall sizes w, accumulatedSize sizes w = zsum (map (fun i => nth (Z.to_nat i) sizes 0) w).
Proof.
  intros sizes w. unfold accumulatedSize.
  assert (H : forall l a, fold_left (fun acc i => acc + nth (Z.to_nat i) sizes 0) l a = a + zsum (map (fun i => nth (Z.to_nat i) sizes 0) l)).
  { induction l as [|x l IH]; intros a; cbn [fold_left map]; [unfold zsum; simpl; lia|]. rewrite IH, zsum_cons. lia. }
  rewrite H. lia.
Qed.

Lemma accumulated_before : forall sizes w, goodSet (Z.of_nat (length sizes)) w ->
  accumulatedSize sizes w = before sizes w (Z.of_nat (length sizes)).
Proof.
  intros sizes w [HS HR]. rewrite accumulated_zsum. unfold before. rewrite <- zsum_filter_ite.
  assert (w = filter (fun j => memZ j w) (zrange 0 (Z.of_nat (length sizes)))) as E.
  { apply sorted_ext; auto.
    - apply filter_sorted, zrange_sorted.
    - intros x. rewrite filter_In, zrange_In, memZ_In. split; [intros H; split; auto|tauto]. }
  rewrite <- E. reflexivity.
Qed.

Lemma layout_length : forall sizes i off w, length (layout sizes i off w) = length sizes.
Proof. induction sizes; intros; cbn [layout length]; auto. Qed.

Lemma layout_nth : forall sizes0 w sizes i off k, off = u32 (before sizes0 w i) -> 0 <= i ->
  (forall j, nth j sizes 0 = nth (Z.to_nat i + j) sizes0 0) -> (k < length sizes)%nat ->
  nth k (layout sizes i off w) None = Some (u32 (before sizes0 w (i + Z.of_nat k))).
Proof.
  intros sizes0 w. induction sizes as [|s sizes IH]; intros i off k Ho Hi HN Hk; cbn [length] in Hk; [lia|].
  cbn [layout]. destruct k as [|k]; cbn [nth].
  - rewrite Z.add_0_r, Ho. reflexivity.
  - replace (i + Z.of_nat (S k)) with (i + 1 + Z.of_nat k) by lia. apply IH; try lia.
    + rewrite before_S by lia. pose proof (HN 0%nat) as E. cbn [nth] in E. rewrite Nat.add_0_r in E. rewrite <- E, Ho.
      unfold u32. destruct (memZ i w); [|f_equal; lia]. rewrite Zplus_mod_idemp_l. reflexivity.
    + intros j. pose proof (HN (S j)) as E. cbn [nth] in E. rewrite E. f_equal. lia.
Qed.

(** The layout of one buffer: sizes and pointers of the chosen subspaces, and length. *)
Definition laidOut (sizes w : list Z) (ptr : list (option Z)) (len : Z) : Prop :=
  ptr = layout sizes 0 0 w /\ len = accumulatedSize sizes w.

Definition dsgInv (n : nat) (d : DSG) : Prop :=
  length (dSizes d) = n /\ Forall (fun s => 0 <= s < 2 ^ 32) (dSizes d) /\
  goodSet (Z.of_nat n) (dWith d) /\
  (dLen d <> 0 -> laidOut (dSizes d) (dWith d) (dPtr d) (dLen d)) /\
  (dKLen d <> 0 -> laidOut (dSizes d) (dWith d) (dKPtr d) (dKLen d)).

Definition validOp (n : nat) (o : dsgOp) : Prop :=
  match o with
  | OpAllocate w => goodSet (Z.of_nat n) w
  | OpSetSize i s => 0 <= i < Z.of_nat n /\ 0 <= s < 2 ^ 32
  | OpMaxReduce l | OpOverwriteAndDelete l => length l = n /\ Forall (fun s => 0 <= s < 2 ^ 32) l
  | _ => True
  end.

Lemma goodSet_all : forall n, goodSet n (zrange 0 n).
Proof. intros n. split; [apply zrange_sorted|]. intros i. rewrite zrange_In. auto. Qed.

(** The invariant without the Kahan buffer. *)
Definition dataInv (n : nat) (d : DSG) : Prop :=
  length (dSizes d) = n /\ Forall (fun s => 0 <= s < 2 ^ 32) (dSizes d) /\
  goodSet (Z.of_nat n) (dWith d) /\
  (dLen d <> 0 -> laidOut (dSizes d) (dWith d) (dPtr d) (dLen d)).

Lemma dsgInv_data : forall n d, dsgInv n d -> dataInv n d.
Proof. intros n d (L & S & G & D & K). split; auto. Qed.

Lemma goodSet_chosen : forall n d, dataInv n d -> goodSet (Z.of_nat n) (chosen d).
Proof.
  intros n d (L & _ & G & _). unfold chosen, numSubspaces. rewrite L. destruct (dWith d); auto. apply goodSet_all.
Qed.

Lemma accumulated_nil : forall sizes, accumulatedSize sizes [] = 0.
Proof. reflexivity. Qed.

(** A non-empty buffer was laid out for a non-empty set. *)
Lemma laidOut_chosen : forall d ptr len, len <> 0 -> laidOut (dSizes d) (dWith d) ptr len -> chosen d = dWith d.
Proof. intros d ptr len H [_ E]. unfold chosen. destruct (dWith d); auto. rewrite accumulated_nil in E. contradiction. Qed.

Lemma createKahan_inv : forall n esz d, dataInv n d -> dsgInv n (createKahanBuffer esz d).
Proof.
  intros n esz d I. pose proof (goodSet_chosen n d I) as G. destruct I as (L & S & G0 & D).
  unfold createKahanBuffer. split; [auto|]. split; [auto|]. split; [exact G|]. cbn. split.
  - intros H. pose proof (D H) as LO. rewrite (laidOut_chosen d _ _ H LO). apply LO.
  - intros _. split; reflexivity.
Qed.

Lemma create_data : forall n esz d, dataInv n d -> dataInv n (createSubspaceData esz d).
Proof.
  intros n esz d I. pose proof (goodSet_chosen n d I) as G. destruct I as (L & S & G0 & D).
  unfold createSubspaceData. cbn zeta. set (d' := {| dSizes := _ |}).
  assert (I' : dataInv n d').
  { unfold d'. split; [auto|]. split; [auto|]. split; [apply G|]. intros _. split; reflexivity. }
  destruct (dKLen d' =? 0); auto. apply dsgInv_data. now apply createKahan_inv.
Qed.

Lemma create_inv : forall n esz d, dsgInv n d -> dsgInv n (createSubspaceData esz d).
Proof.
  intros n esz d I. pose proof (goodSet_chosen n d (dsgInv_data n d I)) as G. destruct I as (L & S & G0 & D & K).
  unfold createSubspaceData. cbn zeta. set (d' := {| dSizes := _ |}).
  assert (I' : dsgInv n d').
  { unfold d'. split; [auto|]. split; [auto|]. split; [apply G|]. cbn. split.
    - intros _. split; reflexivity.
    - intros H. pose proof (K H) as LO. rewrite (laidOut_chosen d _ _ H LO). apply LO. }
  destruct (dKLen d' =? 0); auto. apply createKahan_inv, dsgInv_data, I'.
Qed.

(** The buffers of the old set are replaced, so they need not fit the new set in between. *)
Lemma allocate_inv : forall n esz w d, dsgInv n d -> goodSet (Z.of_nat n) w -> dsgInv n (allocateDifferentSubspaces esz w d).
Proof.
  intros n esz w d (L & S & G & D & K) V. unfold allocateDifferentSubspaces. apply createKahan_inv.
  set (d1 := {| dSizes := _ |}).
  assert (G1 : goodSet (Z.of_nat n) (chosen d1)).
  { unfold chosen, numSubspaces, d1. cbn [dWith dSizes]. rewrite L. destruct w; auto. apply goodSet_all. }
  unfold createSubspaceData. cbn zeta. set (d2 := {| dSizes := dSizes d1; dWith := _ |}).
  assert (I2 : dataInv n d2).
  { unfold d2. split; [auto|]. split; [auto|]. split; [apply G1|]. intros _. split; reflexivity. }
  destruct (dKLen d2 =? 0); auto. apply dsgInv_data. now apply createKahan_inv.
Qed.

Lemma delete_inv : forall n d, dsgInv n d -> dsgInv n (deleteSubspaceData d).
Proof. intros n d (L & S & G & D & K). split; [|split; [|split; [|split]]]; cbn; auto; intros H; now contradiction H. Qed.

Lemma upd_same : forall (l : list Z) i, upd l i (nth i l 0) = l.
Proof. induction l as [|x l IH]; intros [|i]; cbn [upd nth]; auto. now rewrite IH. Qed.

Lemma Forall_upd : forall (P : Z -> Prop) l i v, Forall P l -> P v -> Forall P (upd l i v).
Proof. intros P l. induction l as [|x l IH]; intros [|i] v H Hv; cbn [upd]; auto; inv H; constructor; auto. Qed.

Lemma setSize_inv : forall n i s d, dsgInv n d -> 0 <= s < 2 ^ 32 -> dsgInv n (setDataSize i s d).
Proof.
  intros n i s d I Hs. unfold setDataSize. destruct (Z.eqb_spec s (dataSize d i)) as [E|E].
  - subst s. unfold dataSize. rewrite upd_same. destruct d. exact I.
  - destruct I as (L & S & G & D & K). split; [|split; [|split; [|split]]]; cbn; auto; try (intros H; now contradiction H).
    + now rewrite upd_length.
    + now apply Forall_upd.
Qed.

Lemma overwrite_inv : forall n sizes d, dsgInv n d -> length sizes = n -> Forall (fun s => 0 <= s < 2 ^ 32) sizes ->
  dsgInv n (overwriteSizesAndDelete sizes d).
Proof. intros n sizes d (L & S & G & D & K) HL HF. split; [|split; [|split; [|split]]]; cbn; auto; intros H; now contradiction H. Qed.

Lemma dataSize_range : forall n d i, dsgInv n d -> 0 <= dataSize d i < 2 ^ 32.
Proof.
  intros n d i (L & S & _). unfold dataSize. destruct (Nat.lt_ge_cases (Z.to_nat i) (length (dSizes d))) as [H|H].
  - rewrite Forall_forall in S. apply S. now apply nth_In.
  - rewrite nth_overflow by lia. lia.
Qed.

Lemma nth_u32 : forall l i, Forall (fun s => 0 <= s < 2 ^ 32) l -> 0 <= nth i l 0 < 2 ^ 32.
Proof.
  intros l i S. destruct (Nat.lt_ge_cases i (length l)) as [H|H].
  - rewrite Forall_forall in S. apply S. now apply nth_In.
  - rewrite nth_overflow by lia. lia.
Qed.

Lemma maxReduce_inv : forall n other d, dsgInv n d -> Forall (fun s => 0 <= s < 2 ^ 32) other ->
  dsgInv n (maxReduceSubspaceSizes other d).
Proof.
  intros n other d I HF. unfold maxReduceSubspaceSizes. apply delete_inv. generalize (zrange 0 (numSubspaces d)) as l.
  intros l. revert d I. induction l as [|i l IH]; intros d I; auto. cbn [fold_left]. apply IH. apply setSize_inv; auto.
  pose proof (dataSize_range n d i I). pose proof (nth_u32 other (Z.to_nat i) HF). lia.
Qed.

Lemma runOp_inv : forall n esz d o, dsgInv n d -> validOp n o -> dsgInv n (runOp esz d o).
Proof.
  intros n esz d o I V. destruct o; cbn [runOp validOp] in *.
  - now apply create_inv.
  - now apply createKahan_inv, dsgInv_data.
  - now apply delete_inv.
  - destruct I as (L & S & G & D & K). split; [|split; [|split; [|split]]]; auto.
  - now apply allocate_inv.
  - destruct V. now apply setSize_inv.
  - destruct V. now apply maxReduce_inv.
  - destruct V. now apply overwrite_inv.
  - destruct I as (L & S & G & D & K). split; [|split; [|split; [|split]]]; auto.
Qed.

Lemma runOps_inv : forall n esz ops d, dsgInv n d -> Forall (validOp n) ops -> dsgInv n (fold_left (runOp esz) ops d).
Proof. intros n esz ops. induction ops as [|o ops IH]; intros d I V; auto. inv V. cbn [fold_left]. apply IH; auto. now apply runOp_inv. Qed.

Lemma init_inv : forall n, dsgInv n (initDSG n).
Proof.
  intros n. split; [apply repeat_length|]. split.
  - apply Forall_forall. intros x Hx. apply repeat_spec in Hx. subst. cbn. lia.
  - split; [split; [constructor|intros i []]|]. split; intros H; now contradiction H.
Qed.

(** What a laid out buffer looks like. *)
Lemma laidOut_spec : forall sizes w ptr len, Forall (fun s => 0 <= s < 2 ^ 32) sizes -> goodSet (Z.of_nat (length sizes)) w ->
  laidOut sizes w ptr len -> len < 2 ^ 32 ->
  (forall i, 0 <= i < Z.of_nat (length sizes) -> nth (Z.to_nat i) ptr None = Some (before sizes w i)) /\
  (forall i, In i w -> before sizes w (i + 1) = before sizes w i + nth (Z.to_nat i) sizes 0) /\
  (forall i, ~ In i w -> 0 <= i -> before sizes w (i + 1) = before sizes w i) /\
  len = before sizes w (Z.of_nat (length sizes)).
Proof.
  intros sizes w ptr len HS HG [-> ->] HL. pose proof HG as [_ HR]. rewrite accumulated_before in HL |- * by auto.
  assert (P : Forall (Z.le 0) sizes) by (eapply Forall_impl; [|exact HS]; cbn; intros; lia).
  split; [|split; [|split]]; auto.
  - intros i Hi. rewrite (layout_nth sizes w) ; auto; try lia. rewrite Z.add_0_l, Z2Nat.id by lia. f_equal. unfold u32. apply Z.mod_small.
    pose proof (before_mono sizes w 0 i P ltac:(lia)). pose proof (before_mono sizes w i _ P (conj (proj1 Hi) (Z.lt_le_incl _ _ (proj2 Hi)))).
    rewrite before_0 in *. lia.
  - intros i Hi. rewrite before_S by (apply HR in Hi; lia). apply memZ_In in Hi. now rewrite Hi.
  - intros i Hi H0. rewrite before_S by lia. destruct (memZ i w) eqn:E; [apply memZ_In in E; contradiction|lia].
Qed.

(** Every position lies in the range of a chosen subspace. *)
Lemma before_cover : forall sizes w n k, 0 <= k < before sizes w (Z.of_nat n) ->
  exists i, 0 <= i < Z.of_nat n /\ In i w /\ before sizes w i <= k < before sizes w i + nth (Z.to_nat i) sizes 0.
Proof.
  intros sizes w. induction n as [|n IH]; intros k Hk; [rewrite before_0 in Hk; lia|].
  replace (Z.of_nat (S n)) with (Z.of_nat n + 1) in * by lia. rewrite before_S in Hk by lia.
  destruct (Z_lt_le_dec k (before sizes w (Z.of_nat n))) as [H|H].
  - destruct (IH k ltac:(lia)) as (i & Hi & R). exists i. split; [lia|auto].
  - destruct (memZ (Z.of_nat n) w) eqn:E; [|lia]. apply memZ_In in E. exists (Z.of_nat n). split; [lia|]. split; auto. lia.
Qed.

(** ** Lookup *)

Definition sortedLevels (dim : nat) (levels : list (list Z)) : Prop :=
  StronglySorted lexlt levels /\ Forall (fun l => length l = dim) levels.

(** The position of a level, -1 if it is not there. *)
Definition isPosition (levels : list (list Z)) (l : list Z) (i : Z) : Prop :=
  (0 <= i < Z.of_nat (length levels) /\ nth (Z.to_nat i) levels [] = l) \/ (i = -1 /\ ~ In l levels).

Lemma veqb_spec : forall a b, veqb a b = true <-> a = b.
Proof.
  induction a as [|x a IH]; intros [|y b]; cbn [veqb]; split; intros H; try discriminate; auto.
  - apply andb_true_iff in H. destruct H as [H1 H2]. apply Z.eqb_eq in H1. apply IH in H2. now subst.
  - inv H. rewrite Z.eqb_refl. now apply IH.
Qed.

Section Lookup.
Variables (dim : nat) (levels : list (list Z)) (l : list Z).
Hypothesis HL : sortedLevels dim levels.
Hypothesis Hl : length l = dim.
Let n := Z.of_nat (length levels).
Let at_ (j : Z) := nth (Z.to_nat j) levels [].

Lemma at_len : forall j, 0 <= j < n -> length (at_ j) = dim.
Proof. intros j Hj. unfold at_. destruct HL as [_ F]. rewrite Forall_forall in F. apply F. apply nth_In. unfold n in Hj. lia. Qed.

Lemma at_mono : forall i j, 0 <= i < j -> j < n -> lexlt (at_ i) (at_ j).
Proof. intros i j H1 H2. unfold at_. apply sorted_nth; [apply HL|]. unfold n in *. lia. Qed.

Lemma at_less_mono : forall i j, 0 <= i <= j -> j < n -> lexlt (at_ j) l -> lexlt (at_ i) l.
Proof.
  intros i j H1 H2 H. destruct (Z.eq_dec i j) as [->|N]; auto. eapply lexlt_trans; [apply (at_mono i j)|]; auto; lia.
Qed.

(** The binary search, started at [first] with [len] elements; it may start one element before the vector if the first element
    is smaller than [l]. *)
Lemma lowerBound_spec : forall fuel first len, (Z.to_nat len <= fuel)%nat -> 0 <= len -> -1 <= first -> first + len <= n ->
  (first = -1 -> 2 <= len /\ lexlt (at_ 0) l) ->
  (forall j, 0 <= j < first -> lexlt (at_ j) l) -> (forall j, first + len <= j < n -> ~ lexlt (at_ j) l) ->
  exists p, lowerBoundLoop fuel levels first len l = Some p /\ 0 <= p <= n /\
    (forall j, 0 <= j < p -> lexlt (at_ j) l) /\ (forall j, p <= j < n -> ~ lexlt (at_ j) l).
Proof.
  induction fuel as [|fuel IH]; intros first len Hf H0 H1 H2 Hm Hlow Hhigh.
  - assert (len = 0) by lia. subst len. cbn [lowerBoundLoop].
    assert (first <> -1) by (intros E; specialize (Hm E); lia).
    exists first. split; auto. split; [lia|]. split; auto. intros j Hj. apply Hhigh. lia.
  - cbn [lowerBoundLoop]. destruct (Z.leb_spec len 0) as [Hz|Hz].
    + assert (len = 0) by lia. subst len. assert (first <> -1) by (intros E; specialize (Hm E); lia).
      exists first. split; auto. split; [lia|]. split; auto. intros j Hj. apply Hhigh. lia.
    + assert (Hh : 0 <= len / 2 < len) by (split; [apply Z.div_pos; lia|apply Z.div_lt; lia]).
      assert (Hh2 : 2 <= len -> 1 <= len / 2) by (intros; apply Z.div_le_lower_bound; lia).
      set (half := len / 2) in *.
      assert (M0 : 0 <= first + half).
      { destruct (Z.eq_dec first (-1)) as [E|E]; [|lia]. destruct (Hm E) as [L2 _]. specialize (Hh2 L2). lia. }
      assert (M1 : first + half < n) by lia.
      rewrite (proj2 (Z.ltb_ge _ _) M0). fold n. rewrite (proj2 (Z.leb_gt _ _) M1). cbn [orb].
      fold (at_ (first + half)).
      assert (LS : lexltb (at_ (first + half)) l = true <-> lexlt (at_ (first + half)) l) by (apply lexltb_spec; rewrite at_len; auto; lia).
      destruct (lexltb (at_ (first + half)) l) eqn:E.
      * assert (X : lexlt (at_ (first + half)) l) by now apply LS.
        apply IH; try lia.
        -- intros j Hj. apply (at_less_mono j (first + half)); auto; lia.
        -- intros j Hj. apply Hhigh. lia.
      * assert (X : ~ lexlt (at_ (first + half)) l) by (rewrite <- LS; discriminate).
        apply IH; try lia; auto.
        -- intros E1. destruct (Hm E1) as [L2 L0]. split; auto. specialize (Hh2 L2).
           assert (first + half <> 0) by (intros E2; rewrite E2 in X; contradiction). lia.
        -- intros j Hj. destruct (Z_lt_le_dec j (first + len)) as [Hj'|Hj']; [|apply Hhigh; lia].
           intros Hlt. apply X. apply (at_less_mono (first + half) j); auto; lia.
Qed.

(** A lookup from any lower bound that does not skip the level finds it. *)
Lemma getIndex_spec : forall lb, -1 <= lb <= n -> (lb = -1 -> levels <> [] /\ lexlt (at_ 0) l) ->
  (forall j, 0 <= j < lb -> lexlt (at_ j) l) ->
  exists i, getIndexInRange levels l lb = Some i /\ isPosition levels l i.
Proof.
  intros lb Hlb Hm Hlow. unfold getIndexInRange. fold n.
  destruct (lowerBound_spec (Z.to_nat (n - lb)) lb (n - lb)) as (p & E & Hp & P1 & P2); try lia; auto.
  { intros E. destruct (Hm E) as [NE L0]. split; auto. destruct levels; [congruence|]. unfold n. cbn [length]. lia. }
  rewrite E. destruct (Z.eqb_spec p n) as [Ep|Ep].
  - exists (-1). split; auto. right. split; auto. intros Hin. apply (In_nth _ _ []) in Hin. destruct Hin as (k & Hk & Ek).
    specialize (P1 (Z.of_nat k) ltac:(unfold n in *; lia)). unfold at_ in P1. rewrite Nat2Z.id, Ek in P1. now apply lexlt_irrefl in P1.
  - rewrite (proj2 (Z.ltb_ge p 0)) by lia. fold (at_ p). destruct (veqb (at_ p) l) eqn:V.
    + apply veqb_spec in V. exists p. split; auto. left. split; [unfold n in *; lia|]. exact V.
    + exists (-1). split; auto. right. split; auto. intros Hin. apply (In_nth _ _ []) in Hin. destruct Hin as (k & Hk & Ek).
      assert (NE : at_ p <> l) by (intros X; apply veqb_spec in X; congruence).
      destruct (Z.lt_trichotomy (Z.of_nat k) p) as [H|[H|H]].
      * specialize (P1 (Z.of_nat k) ltac:(lia)). unfold at_ in P1. rewrite Nat2Z.id, Ek in P1. now apply lexlt_irrefl in P1.
      * apply NE. unfold at_. rewrite <- H, Nat2Z.id. exact Ek.
      * apply (P2 p ltac:(lia)). pose proof (at_mono p (Z.of_nat k) ltac:(lia) ltac:(unfold n; lia)) as M.
        unfold at_ in M at 2. rewrite Nat2Z.id, Ek in M. exact M.
Qed.
End Lookup.

Lemma isPosition_unique : forall dim levels l i j, sortedLevels dim levels -> isPosition levels l i -> isPosition levels l j -> i = j.
Proof.
  intros dim levels l i j [HS _] [[Hi Ei]|[Hi Ei]] [[Hj Ej]|[Hj Ej]]; try lia.
  - apply lexsorted_NoDup in HS. rewrite NoDup_nth with (d := []) in HS.
    specialize (HS (Z.to_nat i) (Z.to_nat j) ltac:(lia) ltac:(lia) ltac:(congruence)). lia.
  - exfalso. apply Ej. rewrite <- Ei. apply nth_In. lia.
  - exfalso. apply Ei. rewrite <- Ej. apply nth_In. lia.
Qed.

(** The lookup of a level from the start, as a function. *)
Definition position (levels : list (list Z)) (l : list Z) : Z :=
  match find (fun i => veqb (nth (Z.to_nat i) levels []) l) (zrange 0 (Z.of_nat (length levels))) with Some i => i | None => -1 end.

Lemma position_spec : forall levels l, isPosition levels l (position levels l).
Proof.
  intros levels l. unfold position. destruct (find _ _) as [i|] eqn:E.
  - apply find_some in E. destruct E as [Hi E]. apply zrange_In in Hi. apply veqb_spec in E. left. auto.
  - right. split; auto. intros Hin. apply (In_nth _ _ []) in Hin. destruct Hin as (k & Hk & Ek).
    pose proof (find_none _ _ E (Z.of_nat k) ltac:(apply zrange_In; lia)) as X. cbv beta in X. rewrite Nat2Z.id, Ek in X.
    assert (veqb l l = true) by now apply veqb_spec. congruence.
Qed.

(** A thread whose iterations ascend finds every level; [prev] is the level of its previous iteration. *)
Lemma forLevelsThread_spec : forall {St : Type} (body : Z -> list Z -> St -> St) dim q0 levels', sortedLevels dim (q0 :: levels') ->
  forall qs index s, StronglySorted lexlt qs -> Forall (fun q => length q = dim /\ ~ lexlt q q0) qs ->
  (index = 0 \/ exists prev, isPosition (q0 :: levels') prev index /\ (forall q, In q qs -> lexlt prev q) /\
     length prev = dim /\ ~ lexlt prev q0) ->
  forLevelsThread body (q0 :: levels') qs index s = Some (fold_left (fun s q => body (position (q0 :: levels') q) q s) qs s).
Proof.
  intros St body dim q0 levels' HL. set (levels := q0 :: levels') in *. induction qs as [|q qs IH]; intros index s HS HF HI; auto.
  apply StronglySorted_inv in HS. destruct HS as [HS HQ]. inv HF. destruct H1 as [Lq Nq].
  cbn [forLevelsThread fold_left].
  assert (X : exists i, getIndexInRange levels q index = Some i /\ isPosition levels q i).
  { apply (getIndex_spec dim); auto.
    - destruct HI as [->|(prev & [[P _]|[-> _]] & _)]; lia.
    - intros ->. destruct HI as [E|(prev & HP & HLt & Lp & Hp)]; [discriminate|].
      split; [discriminate|]. cbn. specialize (HLt q (or_introl eq_refl)).
      assert (L0 : length q0 = dim) by (destruct HL as [_ F]; inv F; auto).
      destruct (lexlt_total prev q0) as [E|[E|E]]; [lia|subst; exact HLt|contradiction|eapply lexlt_trans; eauto].
    - intros j Hj. destruct HI as [->|(prev & [[P EP]|[-> _]] & HLt & _)]; try lia.
      eapply lexlt_trans; [|apply HLt; now left]. rewrite <- EP.
      apply sorted_nth; [apply HL|]. lia. }
  destruct X as (i & E & P). rewrite E.
  assert (i = position levels q) as -> by (eapply isPosition_unique; eauto using position_spec).
  apply IH; auto. right. exists q. rewrite Forall_forall in HQ. auto using position_spec.
Qed.

Lemma forLevels_spec : forall {St : Type} (body : Z -> list Z -> St -> St) dim q0 levels', sortedLevels dim (q0 :: levels') ->
  forall threads s, Forall (StronglySorted lexlt) threads -> Forall (fun q => length q = dim /\ ~ lexlt q q0) (concat threads) ->
  forLevels body (q0 :: levels') threads s = Some (fold_left (fun s q => body (position (q0 :: levels') q) q s) (concat threads) s).
Proof.
  intros St body dim q0 levels' HL. induction threads as [|t ts IH]; intros s HS HF; auto.
  inv HS. cbn [concat] in HF. apply Forall_app in HF. destruct HF as [F1 F2].
  cbn [forLevels concat]. rewrite (forLevelsThread_spec body dim) by auto. rewrite fold_left_app. now apply IH.
Qed.
