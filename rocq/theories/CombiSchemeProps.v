(** Properties C10-C15, C59 and C60: combination schemes. *)
From Verif Require Import Base TensorModel LevelSetsModel LevelSetsProofs DofProofs CombiSchemeModel CombiSchemeProofs.

(** Specification vocabulary: [k] is componentwise at most [l], and the sum of the coefficients of all grids above [k]. *)
Fixpoint domb (k l : list Z) : bool :=
  match k, l with
  | [], [] => true
  | x :: k', y :: l' => (x <=? y) && domb k' l'
  | _, _ => false
  end.
Fixpoint coeffSum (spaces : list (list Z)) (coeffs : list Z) (k : list Z) : Z :=
  match spaces, coeffs with
  | s :: sp, c :: co => (if domb k s then c else 0) + coeffSum sp co k
  | _, _ => 0
  end.

Lemma domb_spec : forall k l, domb k l = true <-> Forall2 Z.le k l.
Proof.
  induction k as [|x k IH]; intros [|y l]; cbn [domb].
  - split; constructor.
  - split; [discriminate|intros H; inv H].
  - split; [discriminate|intros H; inv H].
  - rewrite andb_true_iff, Z.leb_le, IH. split; [intros []; constructor; auto|intros H; inv H; auto].
Qed.

Lemma coeffSum_coverage : forall spaces coeffs k, Forall (fun s => length s = length k) spaces ->
  coeffSum spaces coeffs k = coverage spaces coeffs k.
Proof.
  unfold coverage. intros spaces coeffs k F. revert coeffs. induction F as [|s sp L F IH]; intros [|c co]; cbn [coeffSum combine]; auto.
  cbn [filter fst]. assert (E : domb k s = vgeb s k).
  { apply eq_true_iff_eq. rewrite domb_spec, vgeb_spec; auto. reflexivity. }
  rewrite E. destruct (vgeb s k); cbn [map snd]; rewrite ?zsum_cons, IH; auto.
Qed.

Lemma coverage_clamp : forall spaces coeffs lmin k, Forall (fun s => Forall2 Z.le lmin s) spaces -> length k = length lmin ->
  coverage spaces coeffs k = coverage spaces coeffs (vmax k lmin).
Proof.
  unfold coverage. intros spaces coeffs lmin k F L. revert coeffs. induction F as [|s sp Hs F IH]; intros [|c co]; cbn [combine]; auto.
  cbn [filter fst]. assert (E : vgeb s k = vgeb s (vmax k lmin)).
  { assert (Ls : length s = length lmin) by (symmetry; eapply Forall2_length; eauto).
    apply eq_true_iff_eq. rewrite !vgeb_spec.
    - rewrite vmax_le by auto. tauto.
    - unfold vmax. rewrite map2_length; lia.
    - lia. }
  rewrite E. destruct (vgeb s (vmax k lmin)); cbn [map snd]; rewrite ?zsum_cons, IH; auto.
Qed.

(** C10: the classical scheme has one coefficient per grid, no grid twice, and the coefficients of the grids above any
    subspace of the scheme's sparse grid (a level below one of sLevels) add up to 1; adding fault-tolerance grids does not
    change this. For lmin = lmax see C10_..._refuted. *)
Theorem C10_classical_partition_of_unity_partial : forall lmin lmax s, Forall2 Z.le lmin lmax ->
  Forall (fun x => 1 <= x) lmin -> lmin <> lmax ->
  s = classicalScheme lmin lmax \/ s = makeFaultTolerant lmax (classicalScheme lmin lmax) ->
  length (sCoeffs s) = length (sSpaces s) /\
  forall l k, In l (sLevels s) -> Forall2 Z.le k l -> coeffSum (sSpaces s) (sCoeffs s) k = 1.
Proof.
  intros lmin lmax s F P N Hs.
  set (c := classicalScheme lmin lmax) in *.
  assert (LC : length (sCoeffs c) = length (sSpaces c)).
  { destruct (classicalScheme_eq lmin lmax F N) as (_ & _ & _ & _ & _ & EC). fold c in EC. cbv zeta in EC.
    rewrite EC. apply map_length. }
  assert (LL : forall l, In l (sLevels c) -> length l = length lmax) by (intros; eapply classical_levels_length; eauto).
  assert (LS : forall l, In l (sSpaces c) -> length l = length lmax) by (intros; apply LL; apply spaces_in_levels; auto).
  assert (U : forall l k, In l (sLevels c) -> Forall2 Z.le k l -> coeffSum (sSpaces c) (sCoeffs c) k = 1).
  { intros l k Hl Hk. rewrite coeffSum_coverage; [eapply classical_unity_below; eauto|].
    apply Forall_forall. intros x Hx. rewrite (LS x Hx). apply Forall2_length in Hk. specialize (LL l Hl). congruence. }
  destruct Hs as [-> | ->]; [split; auto|].
  unfold makeFaultTolerant. destruct (list_eq_dec Z.eq_dec (sLmin c) lmax); [split; auto|]. cbn [sSpaces sCoeffs sLevels].
  set (extra := spacesOnDiagonals _ _ _ _).
  assert (LE : forall l, In l extra -> length l = length lmax).
  { intros l Hl. apply LL. unfold extra, spacesOnDiagonals in Hl. apply in_flat_map in Hl as [x [Hx Hl]].
    apply in_flat_map in Hl as [p [_ Hl]]. destruct (vgeb x (sLmin c) && (levelSum x =? sN c - p)); [|contradiction].
    destruct Hl as [->|[]]. auto. }
  split; [rewrite !app_length, map_length; lia|].
  intros l k Hl Hk. assert (Lk : length k = length lmax) by (apply Forall2_length in Hk; specialize (LL l Hl); congruence).
  rewrite coeffSum_coverage.
  - rewrite coverage_app, coverage_zeros by auto. rewrite <- coeffSum_coverage, (U l k); auto.
    apply Forall_forall. intros x Hx. rewrite (LS x Hx). auto.
  - apply Forall_forall. intros x Hx. apply in_app_or in Hx as [Hx|Hx]; [rewrite (LS x Hx)|rewrite (LE x Hx)]; auto.
Qed.

(** No component grid is listed twice. *)
Theorem C10_classical_no_duplicates : forall lmin lmax, Forall2 Z.le lmin lmax ->
  NoDup (sSpaces (classicalScheme lmin lmax)).
Proof.
  intros lmin lmax F. destruct (list_eq_dec Z.eq_dec lmin lmax) as [->|N].
  - unfold classicalScheme, classicalSpaces.
    assert (E : eraseDummies (dummyMask lmax lmax) lmax = []).
    { clear. induction lmax; simpl; auto. destruct (Z.eqb_spec (a - a) 0); [auto|lia]. }
    rewrite E. constructor.
  - apply lexsorted_NoDup, classical_spaces_sorted; auto.
Qed.

(** With lmin = lmax the statement fails for every level: a coefficient but no grid is stored. *)
Theorem C10_classical_partition_of_unity_refuted : forall l, l <> [] ->
  sSpaces (classicalScheme l l) = [] /\ sCoeffs (classicalScheme l l) = [1] /\ In l (sLevels (classicalScheme l l)) /\
  coeffSum (sSpaces (classicalScheme l l)) (sCoeffs (classicalScheme l l)) l = 0.
Proof.
  intros l _. unfold classicalScheme, classicalSpaces.
  assert (E : eraseDummies (dummyMask l l) l = []).
  { clear. induction l; simpl; auto. destruct (Z.eqb_spec (a - a) 0); [auto|lia]. }
  rewrite E. simpl. auto.
Qed.

(** C11: a dummy dimension receives the entry of lmax whose position is the number of dummy dimensions before it; this is
    the right level if all dummy dimensions come first ... *)
Theorem C11_dummy_levels_partial : forall lmin lmax l d, Forall2 Z.le lmin lmax -> lmin <> lmax ->
  In l (sSpaces (classicalScheme lmin lmax)) -> (d < length lmax)%nat ->
  (forall e, (e <= d)%nat -> nth e lmin 0 = nth e lmax 0) -> nth d l 0 = nth d lmax 0.
Proof.
  intros lmin lmax l d F N Hl Hd E. assert (LL : length lmin = length lmax) by (eapply Forall2_length; eauto).
  assert (M : forall e, (e <= d)%nat -> nth e (dummyMask lmin lmax) false = true).
  { intros e He. unfold dummyMask. rewrite (map2_nth _ _ _ _ _ _ e 0 0) by lia. rewrite E by auto. apply Z.eqb_eq. lia. }
  rewrite (classical_dummy_level lmin lmax F N l d Hl Hd) by auto. f_equal.
  assert (LM : length (dummyMask lmin lmax) = length lmax) by (unfold dummyMask; rewrite map2_length; lia).
  clear -M Hd LM. revert M LM. generalize (dummyMask lmin lmax) as m.
  intros m M LM. assert (Hm : (d < length m)%nat) by lia. clear -M Hm. revert d M Hm.
  induction m as [|b m IH]; intros [|d] M Hm; simpl in Hm; try lia; auto.
  cbn [firstn countTrue]. pose proof (M 0%nat ltac:(lia)) as B. cbn [nth] in B. subst b. rewrite IH; auto; [|lia].
  intros e He. exact (M (S e) ltac:(lia)).
Qed.

(** ... but not in general: the code's own example lmin = (2,2,2), lmax = (4,4,2). *)
Theorem C11_dummy_levels_refuted : exists lmin lmax l d,
  Forall2 Z.le lmin lmax /\ Forall (fun x => 1 <= x) lmin /\ In l (sSpaces (classicalScheme lmin lmax)) /\
  (d < length lmax)%nat /\ nth d lmin 0 = nth d lmax 0 /\ nth d l 0 <> nth d lmax 0.
Proof.
  exists [2; 2; 2], [4; 4; 2], [2; 3; 4], 2%nat. split; [repeat constructor; lia|]. split; [repeat constructor; lia|].
  split; [vm_compute; auto|]. split; [simpl; lia|]. split; [reflexivity|]. simpl. congruence.
Qed.

(** C12: with at most 255 grids the loop ends and yields the coefficient of each grid in order ... *)
Theorem C12_coefficient_loop_partial : forall lmin lmax,
  let s := classicalSpaces lmin lmax in
  (length (sSpaces s) <= 255)%nat ->
  exists fuel, classicalCoeffLoop fuel (sEffDim s) (sN s) (sSpaces s) 0 []
    = Some (map (fun l => signPow (sN s - zsum l) * binom (sEffDim s - 1) (Z.to_nat (sN s - zsum l))) (sSpaces s)).
Proof.
  intros lmin lmax s H. exists (S (length (sSpaces s))).
  pose proof (coeffLoop_short (length (sSpaces s)) (sEffDim s) (sN s) (sSpaces s) 0 [] (S (length (sSpaces s)))
    eq_refl H ltac:(lia)) as E. cbn [skipn app Z.of_nat] in E. rewrite E. f_equal. apply map_ext.
  intros l. unfold classicalCoeff. now rewrite levelSum_zsum.
Qed.

(** ... with more it never ends: 4d, levels 1 to 9. *)
Theorem C12_coefficient_loop_refuted : exists lmin lmax, Forall2 Z.le lmin lmax /\ Forall (fun x => 1 <= x) lmin /\
  let s := classicalSpaces lmin lmax in
  forall fuel, classicalCoeffLoop fuel (sEffDim s) (sN s) (sSpaces s) 0 [] = None.
Proof.
  exists [1; 1; 1; 1], [9; 9; 9; 9]. split; [repeat constructor; lia|]. split; [repeat constructor; lia|].
  intros s fuel. apply coeffLoop_endless; [|lia].
  assert (E : length (sSpaces s) = 425%nat) by (vm_compute; reflexivity). rewrite E. lia.
Qed.

(** C13: for any list of component levels that is lexicographically sorted and closed downwards above lmin, the grids kept
    have the coefficients of inclusion-exclusion: above every level of the set, and above every level below it, they add
    up to 1. *)
Theorem C13_adaptive_inclusion_exclusion : forall lmin spaces l k,
  lmin <> [] -> Forall (fun x => 1 <= x) lmin ->
  StronglySorted lexlt spaces -> Forall (fun s => Forall2 Z.le lmin s) spaces ->
  (forall x y, In x spaces -> Forall2 Z.le lmin y -> Forall2 Z.le y x -> In y spaces) ->
  In l spaces -> Forall2 Z.le k l ->
  let r := adaptiveCoeffs spaces in
  length (fst r) = length (snd r) /\ coeffSum (fst r) (snd r) k = 1.
Proof.
  intros lmin spaces l k Hne P SS FL HC Hl Hk r.
  assert (WF : wfSpaces (length lmin) spaces).
  { split; auto. rewrite Forall_forall in *. intros s Hs. specialize (FL s Hs). split; [symmetry; eapply Forall2_length; eauto|].
    clear -FL P. apply Forall_forall. intros x Hx. rewrite <- Forall_forall in P. induction FL; [contradiction|]. inv P.
    destruct Hx as [<-|Hx]; [lia|auto]. }
  assert (Hd : (0 < length lmin)%nat) by (destruct lmin; [congruence|simpl; lia]).
  pose proof (adaptiveCoeffs_eq (length lmin) spaces Hd WF) as E. cbv zeta in E.
  assert (FR : Forall (fun s => Forall2 Z.le lmin s) (fst r)).
  { unfold r. rewrite E. cbn [fst]. rewrite Forall_forall in *. intros s Hs. apply filter_In in Hs. apply FL. tauto. }
  rewrite Forall_forall in FL. pose proof (FL l Hl) as Ll. apply Forall2_length in Ll as L1. apply Forall2_length in Hk as L2.
  split; [unfold r; rewrite E; cbn [fst snd]; now rewrite map_length|].
  rewrite coeffSum_coverage.
  - rewrite (coverage_clamp _ _ lmin) by (auto; congruence). unfold r.
    apply (adaptive_unity (length lmin) spaces lmin); auto; [now apply Forall_forall|].
    apply (HC l); auto.
    + clear -L1 L2. assert (L : length k = length lmin) by congruence. clear L1 L2. revert lmin L.
      unfold vmax. induction k as [|x k IH]; intros [|y m] L; simpl in L; try lia; cbn [map2]; constructor; [lia|]. apply IH. lia.
    + apply vmax_le; auto. congruence.
  - apply Forall_forall. intros s Hs. rewrite Forall_forall in FR. specialize (FR s Hs). apply Forall2_length in FR. congruence.
Qed.

(** createAdaptiveCombischeme hands exactly such a list to the coefficient computation, so its grids form a partition of
    unity on every subspace of every level used, also for anisotropic lmin, lmax. *)
Theorem C13_adaptive_scheme_partition_of_unity : forall lmin lmax l k, Forall2 Z.le lmin lmax -> lmin <> [] ->
  Forall (fun x => 1 <= x) lmin -> In l (adaptiveSpaces lmin lmax) -> Forall2 Z.le k l ->
  let s := adaptiveScheme lmin lmax in
  length (sCoeffs s) = length (sSpaces s) /\ coeffSum (sSpaces s) (sCoeffs s) k = 1.
Proof.
  intros lmin lmax l k F Hne P Hl Hk s.
  destruct (adaptiveSpaces_wf lmin lmax F Hne P) as [W1 _].
  destruct (C13_adaptive_inclusion_exclusion lmin (adaptiveSpaces lmin lmax) l k Hne P W1) as [A B]; auto.
  - apply Forall_forall. intros v Hv. apply adaptiveSpaces_In in Hv; tauto.
  - intros x y Hx H1 H2. eapply adaptiveSpaces_closed; eauto.
  - unfold s, adaptiveScheme. destruct (adaptiveCoeffs (adaptiveSpaces lmin lmax)) as [sp co]. cbn [fst snd sSpaces sCoeffs] in *. auto.
Qed.

(** C14: if the difference lmax - lmin is the same in all dimensions the adaptive scheme covers every level between lmin
    and lmax whose level sum is at most |lmin| plus the difference ... *)
Theorem C14_adaptive_covers_range_partial : forall lmin lmax m l, lmin <> [] -> Forall (fun x => 1 <= x) lmin -> 0 <= m ->
  lmax = map (fun x => x + m) lmin -> Forall2 Z.le lmin l -> zsum l <= zsum lmin + m ->
  coeffSum (sSpaces (adaptiveScheme lmin lmax)) (sCoeffs (adaptiveScheme lmin lmax)) l = 1.
Proof.
  intros lmin lmax m l Hne P Hm E Hl S.
  assert (F : Forall2 Z.le lmin lmax).
  { subst lmax. clear -Hm. induction lmin; cbn [map]; constructor; auto. lia. }
  assert (EN : adaptiveN lmin lmax - zsum lmin = m).
  { destruct (adaptiveN_spec lmin lmax F Hne) as (N & E1 & _ & _ & [d [Hd E2]]). rewrite E1, <- E2. subst lmax.
    rewrite (nth_indep (map (fun x => x + m) lmin) 0 (0 + m)) by (now rewrite map_length). rewrite (map_nth (fun x => x + m)). lia. }
  assert (I : In l (adaptiveSpaces lmin lmax)).
  { apply adaptiveSpaces_In; auto. rewrite EN. split; auto. split; auto.
    assert (EL : map (fun x => x - m) lmax = lmin).
    { subst lmax. rewrite map_map. rewrite <- (map_id lmin) at 2. apply map_ext. intros. lia. }
    rewrite EL. rewrite excess_above; [lia| |auto]. symmetry. eapply Forall2_length; eauto. }
  apply (C13_adaptive_scheme_partition_of_unity lmin lmax l l); auto.
  clear. induction l; constructor; auto; lia.
Qed.

(** ... in general it does not: for lmin = (1,1), lmax = (3,6) no grid covers (1,6), not even (1,4). *)
Theorem C14_adaptive_covers_range_refuted : exists lmin lmax l, Forall2 Z.le lmin lmax /\ Forall (fun x => 1 <= x) lmin /\
  Forall2 Z.le lmin l /\ Forall2 Z.le l lmax /\ zsum l <= zsum lmin + 5 /\
  (exists d, nth d lmax 0 - nth d lmin 0 = 5) /\
  forall g, In g (sSpaces (adaptiveScheme lmin lmax)) -> ~ Forall2 Z.le l g.
Proof.
  exists [1; 1], [3; 6], [1; 4]. repeat (split; [try (repeat constructor; lia); try (vm_compute; congruence)|]).
  - exists 1%nat. reflexivity.
  - intros g Hg Hle. apply domb_spec in Hle. revert Hle.
    assert (A : Forall (fun g => domb [1; 4] g = false) (sSpaces (adaptiveScheme [1; 1] [3; 6]))) by (vm_compute; repeat constructor).
    rewrite Forall_forall in A. rewrite (A g Hg). discriminate.
Qed.

(** C15: the down set rebuilt from the grids with coefficient 1 is sorted, free of duplicates and contains exactly the
    levels dominated by some grid of the scheme: classical (also with fault-tolerance grids) and adaptive schemes. *)
Definition isDownSetOf (r spaces : list (list Z)) : Prop :=
  StronglySorted lexlt r /\ NoDup r /\
  forall k, In k r <-> exists f, In f spaces /\ Forall2 (fun x y => 1 <= x <= y) k f.

Lemma downSet_from_front : forall dim spaces coeffs, Forall (fun w => length w = dim) spaces ->
  (forall l, In l spaces -> exists f, In (f, 1) (combine spaces coeffs) /\ Forall2 Z.le l f) ->
  isDownSetOf (createDownSet spaces coeffs) spaces.
Proof.
  intros dim spaces coeffs F H. destruct (createDownSet_spec dim spaces coeffs F) as [S M]. split; auto.
  split; [now apply lexsorted_NoDup|]. intros k. rewrite M. split.
  - intros [f [Hf Fk]]. exists f. split; auto. now apply in_combine_l in Hf.
  - intros [g [Hg Fk]]. destruct (H g Hg) as [f [Hf Fg]]. exists f. split; auto. clear -Fk Fg.
    revert f Fg. induction Fk; intros f Fg; inv Fg; constructor; auto. lia.
Qed.

Theorem C15_classical_down_set : forall lmin lmax s, Forall2 Z.le lmin lmax -> Forall (fun x => 1 <= x) lmin ->
  lmin <> lmax -> s = classicalScheme lmin lmax \/ s = makeFaultTolerant lmax (classicalScheme lmin lmax) ->
  isDownSetOf (createDownSet (sSpaces s) (sCoeffs s)) (sSpaces s).
Proof.
  intros lmin lmax s F P N Hs. set (c := classicalScheme lmin lmax) in *.
  assert (LL : forall l, In l (sLevels c) -> length l = length lmax) by (intros; eapply classical_levels_length; eauto).
  assert (LS : forall l, In l (sSpaces c) -> length l = length lmax) by (intros; apply LL; apply spaces_in_levels; auto).
  assert (C : isDownSetOf (createDownSet (sSpaces c) (sCoeffs c)) (sSpaces c)).
  { apply (downSet_from_front (length lmax)); [apply Forall_forall; auto|]. apply classical_front; auto. }
  destruct Hs as [-> | ->]; auto.
  unfold makeFaultTolerant. destruct (list_eq_dec Z.eq_dec (sLmin c) lmax); auto. cbn [sSpaces sCoeffs].
  set (extra := spacesOnDiagonals _ _ _ _).
  assert (IE : forall l, In l extra -> In l (sLevels c)).
  { intros l Hl. unfold extra, spacesOnDiagonals in Hl. apply in_flat_map in Hl as [x [Hx Hl]].
    apply in_flat_map in Hl as [p [_ Hl]]. destruct (vgeb x (sLmin c) && (levelSum x =? sN c - p)); [|contradiction].
    destruct Hl as [->|[]]. auto. }
  assert (LC : length (sSpaces c) = length (sCoeffs c)).
  { destruct (classicalScheme_eq lmin lmax F N) as (_ & _ & _ & _ & _ & EC). fold c in EC. cbv zeta in EC.
    rewrite EC. symmetry. apply map_length. }
  apply (downSet_from_front (length lmax)).
  - apply Forall_forall. intros x Hx. apply in_app_or in Hx as [Hx|Hx]; auto.
  - assert (CA : forall (A B : Type) (a1 a2 : list A) (b1 b2 : list B), length a1 = length b1 ->
      combine (a1 ++ a2) (b1 ++ b2) = combine a1 b1 ++ combine a2 b2).
    { clear. induction a1; intros a2 [|b b1] b2 L; simpl in *; try lia; auto. f_equal. auto. }
    rewrite CA by auto.
    assert (G : forall l, In l (sLevels c) -> exists f, In (f, 1) (combine (sSpaces c) (sCoeffs c)) /\ Forall2 Z.le l f).
    { intros l Hl. destruct (classical_levels_covered lmin lmax l F N P Hl) as [g [Hg Fg]].
      destruct (classical_front lmin lmax F N g Hg) as [f [Hf Ff]]. exists f. split; auto.
      clear -Fg Ff. revert f Ff. induction Fg; intros f Ff; inv Ff; constructor; auto. lia. }
    intros l Hl. assert (Il : In l (sLevels c)) by (apply in_app_or in Hl as [Hl|Hl]; auto; now apply spaces_in_levels).
    destruct (G l Il) as [f [Hf Ff]]. exists f. split; auto. apply in_or_app. auto.
Qed.

Theorem C15_adaptive_down_set : forall lmin lmax, Forall2 Z.le lmin lmax -> lmin <> [] -> Forall (fun x => 1 <= x) lmin ->
  let s := adaptiveScheme lmin lmax in
  isDownSetOf (createDownSet (sSpaces s) (sCoeffs s)) (sSpaces s).
Proof.
  intros lmin lmax F Hne P s.
  pose proof (adaptiveSpaces_wf lmin lmax F Hne P) as W.
  assert (Hd : (0 < length lmin)%nat) by (destruct lmin; [congruence|simpl; lia]).
  pose proof (adaptiveCoeffs_eq (length lmin) _ Hd W) as E. cbv zeta in E.
  pose proof (fun l Hl => adaptive_front (length lmin) _ l Hd W Hl) as FR.
  unfold s, adaptiveScheme. destruct (adaptiveCoeffs (adaptiveSpaces lmin lmax)) as [sp co] eqn:AC. cbn [fst snd sSpaces sCoeffs] in *.
  injection E. intros _ E2. destruct W as [_ W]. rewrite Forall_forall in W.
  apply (downSet_from_front (length lmin)).
  - rewrite E2. apply Forall_forall. intros x Hx. apply filter_In in Hx as [Hx _]. apply W. auto.
  - intros l Hl. apply FR. rewrite E2 in Hl. apply filter_In in Hl. tauto.
Qed.

(** C59: for lmin = lmax the classical scheme should consist of the single grid lmin with coefficient 1; it has the
    coefficient but no grid. *)
Theorem C59_single_grid_scheme_refuted : exists l, l <> [] /\ Forall (fun x => 1 <= x) l /\
  sCoeffs (classicalScheme l l) = [1] /\ length (sSpaces (classicalScheme l l)) <> length (sCoeffs (classicalScheme l l)).
Proof. exists [2; 3]. vm_compute. repeat (split; [repeat constructor; congruence|]). congruence. Qed.

(** C60: the down set stored by the classical scheme is sorted as binary searches on it require, and without dummy
    dimensions it contains exactly the levels dominated by some grid ... *)
Theorem C60_classical_levels_sorted : forall lmin lmax, Forall2 Z.le lmin lmax ->
  StronglySorted lexlt (sLevels (classicalScheme lmin lmax)).
Proof. exact classical_levels_sorted. Qed.

Theorem C60_classical_levels_exact_partial : forall lmin lmax, Forall2 Z.lt lmin lmax -> lmin <> [] ->
  Forall (fun x => 1 <= x) lmin -> isDownSetOf (sLevels (classicalScheme lmin lmax)) (sSpaces (classicalScheme lmin lmax)).
Proof.
  intros lmin lmax FL Hne P.
  assert (F : Forall2 Z.le lmin lmax) by (clear -FL; induction FL; constructor; auto; lia).
  split; [now apply classical_levels_sorted|]. split; [now apply lexsorted_NoDup, classical_levels_sorted|].
  intros k. now apply classical_levels_exact.
Qed.

(** ... with a dummy dimension it is not closed downwards in that dimension. *)
Theorem C60_classical_levels_exact_refuted : exists lmin lmax, Forall2 Z.le lmin lmax /\ Forall (fun x => 1 <= x) lmin /\
  lmin <> lmax /\ ~ isDownSetOf (sLevels (classicalScheme lmin lmax)) (sSpaces (classicalScheme lmin lmax)).
Proof.
  exists [2; 1], [2; 3]. split; [repeat constructor; lia|]. split; [repeat constructor; lia|]. split; [congruence|].
  intros (_ & _ & H). specialize (H [1; 1]). destruct H as [_ H].
  assert (I : In [1; 1] (sLevels (classicalScheme [2; 1] [2; 3]))).
  { apply H. exists [2; 3]. split; [vm_compute; auto|]. repeat constructor; lia. }
  vm_compute in I. intuition congruence.
Qed.

Example C10_ex : let s := classicalScheme [1; 2] [3; 4] in
  sSpaces s = [[1; 3]; [1; 4]; [2; 2]; [2; 3]; [3; 2]] /\ sCoeffs s = [-1; 1; -1; 1; 1] /\
  coeffSum (sSpaces s) (sCoeffs s) [1; 1] = 1 /\ length (sSpaces (makeFaultTolerant [3; 4] s)) = 6%nat.
Proof. vm_compute. auto. Qed.
Example C11_ex : In [2; 2; 3] (sSpaces (classicalScheme [2; 2; 2] [2; 3; 3])).
Proof. vm_compute. auto. Qed.
Example C12_ex : let s := classicalSpaces [1; 1] [4; 4] in
  classicalCoeffLoop 9 (sEffDim s) (sN s) (sSpaces s) 0 [] = Some [-1; 1; -1; 1; -1; 1; 1].
Proof. vm_compute. auto. Qed.
Example C13_ex : adaptiveCoeffs [[1; 1]; [1; 2]; [1; 3]; [2; 1]; [2; 2]; [3; 1]] = ([[1; 2]; [1; 3]; [2; 1]; [2; 2]; [3; 1]], [-1; 1; -1; 1; 1]).
Proof. vm_compute. auto. Qed.
Example C14_ex : sSpaces (adaptiveScheme [2; 1] [4; 3]) = [[2; 2]; [2; 3]; [3; 1]; [3; 2]; [4; 1]].
Proof. vm_compute. auto. Qed.
Example C15_ex : createDownSet [[1; 2]; [2; 1]; [1; 1]] [1; 1; -1] = [[1; 1]; [1; 2]; [2; 1]].
Proof. vm_compute. auto. Qed.
Example C60_ex : sLevels (classicalScheme [1; 1] [2; 2]) = [[1; 1]; [1; 2]; [2; 1]].
Proof. vm_compute. auto. Qed.

Print Assumptions C10_classical_partition_of_unity_partial.
Print Assumptions C10_classical_no_duplicates.
Print Assumptions C10_classical_partition_of_unity_refuted.
Print Assumptions C11_dummy_levels_partial.
Print Assumptions C11_dummy_levels_refuted.
Print Assumptions C12_coefficient_loop_partial.
Print Assumptions C12_coefficient_loop_refuted.
Print Assumptions C13_adaptive_inclusion_exclusion.
Print Assumptions C13_adaptive_scheme_partition_of_unity.
Print Assumptions C14_adaptive_covers_range_partial.
Print Assumptions C14_adaptive_covers_range_refuted.
Print Assumptions C15_classical_down_set.
Print Assumptions C15_adaptive_down_set.
Print Assumptions C59_single_grid_scheme_refuted.
Print Assumptions C60_classical_levels_sorted.
Print Assumptions C60_classical_levels_exact_partial.
Print Assumptions C60_classical_levels_exact_refuted.
