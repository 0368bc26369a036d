(** Theorems about the recomputation of coefficients after faults (FaultModel). GLPK is taken by specification; the
    theorems hold for the integer program ([integral = true]) and for its relaxation ([integral = false]), whose solution
    the program reads. *)
From Verif Require Import Base TensorModel TensorProofs LevelSetsModel LevelSetsProofs CombiSchemeModel CombiSchemeProofs DofProofs.
From Verif Require Import QcTools HierMassProofs InterpProofs CombiStepProofs FaultModel FaultProofs FaultParamProofs FaultIsoProofs.
From Coq Require Import QArith Qcanon.
Open Scope Z_scope.
Ltac Zify.zify_post_hook ::= idtac.

Ltac lexs := first [apply lex_head; lia | apply lex_tail; lexs].
Ltac wfd := split; cbn [keys map fst]; [repeat (apply SSorted_cons || apply SSorted_nil || apply Forall_cons || apply Forall_nil || lexs)
  |repeat constructor].

(** A grid of level [k] contains the subspace [t]. *)
Definition covers (t k : list Z) : bool := forallb (fun p => fst p <=? snd p) (combine t k).
(** The total coefficient of the grids containing the subspace. *)
Definition counted (out : dict Qc) (t : list Z) : Qc := qsum (map (fun p => if covers t (fst p) then snd p else 0%Qc) out).

Lemma covers_vgeb : forall t k, length t = length k -> covers t k = vgeb k t.
Proof.
  intros t k L. apply eq_true_iff_eq. rewrite vgeb_spec by auto. unfold covers. revert k L.
  induction t as [|x t IH]; destruct k as [|y k]; intros L; simpl in L; try lia; cbn [combine forallb fst snd].
  - split; auto.
  - rewrite andb_true_iff, Z.leb_le, IH by lia. split; [intros [A B]; now constructor|intros H; now inv H].
Qed.

Lemma counted_map : forall (f : list Z -> Qc) K t, (forall k, In k K -> length k = length t) ->
  counted (map (fun k => (k, f k)) K) t = qsum (map (fun k => if vgeb k t then f k else 0%Qc) K).
Proof.
  intros f K t H. unfold counted. rewrite map_map. apply qs_ext. intros k Hk. cbn [fst snd]. now rewrite covers_vgeb by (symmetry; auto).
Qed.

(** C80: the failed grids get coefficient 0 or are listed for recomputation; listed are only failed grids with a nonzero
    coefficient outside the two finest diagonals. *)
Theorem C80_failed_grids_avoided : forall lmin lmax given faults integral w, validScheme lmin lmax given ->
  Forall (fun f => In f (keys given)) faults ->
  exists s, construct lmin lmax given faults = Some s /\ (feasible integral s w ->
    exists out rec, getResults s w = Some (out, rec) /\ keys out = keys given /\
      (forall f, In f faults -> dfind f out = Some 0%Qc \/ In f rec) /\
      (forall f, In f rec -> In f faults /\ ~ onTop lmin lmax f /\ exists c, dfind f out = Some c /\ c <> 0%Qc)).
Proof.
  intros lmin lmax given faults integral w VS HF. exists (theSetup lmin lmax given faults). split; [now apply construct_eq|].
  intros Fe. pose proof Fe as (L & _ & _).
  pose proof VS as (WD & _ & _ & NE & B & _). rewrite Forall_forall in B.
  eexists _, _. split; [apply results_eq; auto|].
  assert (FI : forall f, In f (keys given) -> dfind f (map (fun k => (k, newc lmin lmax given faults w k)) (keys given)) = Some (newc lmin lmax given faults w f)).
  { intros f Hf. apply In_dfind.
    - unfold keys at 1. rewrite map_map, map_id. now apply (wf_NoDup (length lmin)).
    - now apply (in_map (fun k => (k, newc lmin lmax given faults w k))). }
  rewrite Forall_forall in HF. split; [unfold keys; rewrite map_map; apply map_id|]. split.
  - intros f Hf. rewrite FI by auto. destruct (Qc_eq_dec (newc lmin lmax given faults w f) 0%Qc) as [E|E]; [left; now rewrite E|right].
    destruct (topFault lmin lmax f) eqn:T.
    + exfalso. apply E. unfold newc. apply (fault_coef _ _ integral _ w _ (setup_wf lmin lmax given VS faults (proj2 (Forall_forall _ _) HF)) Fe).
      unfold theSetup. cbn [sValid]. apply in_map. apply filter_In. auto.
    + apply filter_In. split; [apply filter_In; split; auto; now rewrite T|]. destruct (Qc_eq_dec _ _); [contradiction|reflexivity].
  - intros f Hf. apply filter_In in Hf as [Hf Hc]. apply filter_In in Hf as [Hf T]. split; auto. split.
    + intros O. destruct (B f (HF f Hf)) as [B1 B2]. apply topFault_onTop in O; auto. rewrite O in T. discriminate.
    + rewrite FI by auto. eexists. split; [reflexivity|]. destruct (Qc_eq_dec _ _); [discriminate|auto].
Qed.

(** The integer program always has an optimal solution. *)
Theorem C80_solvable : forall lmin lmax given faults s, validScheme lmin lmax given ->
  Forall (fun f => In f (keys given)) faults -> construct lmin lmax given faults = Some s -> exists w, optimal true s w.
Proof.
  intros lmin lmax given faults s VS HF E. rewrite construct_eq in E by auto. inv E.
  eapply solvable. now apply setup_wf.
Qed.

(** C81: if the scheme stores every level of its down set, the new coefficients of the grids containing a subspace add up to a
    number between 0 and 1 (0 or 1 for the integer program), and to 1 if the subspace is in no failed grid of the two
    finest diagonals ... *)
Theorem C81_counted_at_most_once_partial : forall lmin lmax given faults integral s w out rec, validScheme lmin lmax given ->
  Forall (fun f => In f (keys given)) faults ->
  (forall t a c, Forall2 Z.le lmin t -> In (a, c) given -> (0 < c)%Qc -> Forall2 Z.le t a -> In t (keys given)) ->
  construct lmin lmax given faults = Some s -> feasible integral s w -> getResults s w = Some (out, rec) ->
  forall t a c, Forall2 Z.le lmin t -> In (a, c) given -> (0 < c)%Qc -> Forall2 Z.le t a ->
  (0 <= counted out t)%Qc /\ (counted out t <= 1)%Qc /\ (integral = true -> counted out t = 0%Qc \/ counted out t = 1%Qc) /\
  (optimal integral s w -> (forall f, In f faults -> onTop lmin lmax f -> ~ Forall2 Z.le f t) -> counted out t = 1%Qc).
Proof.
  intros lmin lmax given faults integral s w out rec VS HF FULL EC Fe ER t a c Ht Ha Hc Hta.
  rewrite construct_eq in EC by auto. injection EC as <-. pose proof Fe as (L & _ & _).
  rewrite results_eq in ER by auto. injection ER as <- _.
  assert (IS : inScheme lmin given t) by (split; auto; exists a, c; auto).
  pose proof VS as ((_ & WL) & _ & _ & NE & B & _). rewrite Forall_forall in WL, B.
  pose proof (setup_wf lmin lmax given VS faults HF) as W. pose proof W as (_ & _ & HS & _).
  set (s := theSetup lmin lmax given faults) in *.
  assert (CE : counted (map (fun k => (k, newc lmin lmax given faults w k)) (keys given)) t = val (sLevelsOf s) w (red lmin lmax t)).
  { rewrite counted_map by (intros k Hk; rewrite (WL k Hk); apply Forall2_length in Ht; auto).
    apply (counted_eq lmin lmax given VS faults HF); auto.
    intros b Hb NK. exfalso. apply NK. apply (K_In lmin lmax given VS faults) in Hb as (H1 & a' & c' & Ha' & Hc' & Hba).
    rewrite newGiven_keys. unfold newGiven in Ha'. apply in_map_iff in Ha' as ([k x] & E & Hk). cbn [fst snd] in E. inv E.
    pose proof (in_map fst _ _ Hk) as Hk'. cbn [fst] in Hk'. destruct (B k Hk') as [B1 B2].
    set (m := redMask lmin lmax).
    assert (Lm : length m = length lmin) by (apply (v_mask lmin lmax given VS)).
    assert (Lk : length k = length m) by (rewrite Lm; auto).
    assert (Lb : length b = countFalse m).
    { apply Forall2_length in H1. unfold red in H1. rewrite eraseDummies_length in H1; auto. }
    set (u := weave m b (selectDummies m lmin)).
    assert (SL : length (selectDummies m lmin) = countTrue m).
    { clear - Lm. revert Lm. generalize lmin. induction m as [|[|] m IH]; intros [|x l] E; simpl in *; try lia; auto. }
    assert (EU : eraseDummies m u = b) by (apply erase_weave; auto; lia).
    assert (LU : length u = length m).
    { unfold u. clear - Lb SL. revert Lb SL. generalize b, (selectDummies m lmin). induction m as [|[|] m IH]; intros l1 l2 E1 E2; simpl in *.
      - destruct l1, l2; auto; discriminate.
      - destruct l2; [discriminate|]. simpl in *. rewrite IH; auto.
      - destruct l1; [discriminate|]. simpl in *. rewrite IH; auto. }
    assert (SU : selectDummies m u = selectDummies m lmin).
    { unfold u. clear - Lb SL. revert Lb SL. generalize b, (selectDummies m lmin). induction m as [|[|] m IH]; intros l1 l2 E1 E2; simpl in *.
      - destruct l1, l2; auto; discriminate.
      - destruct l2; [discriminate|]. simpl in *. rewrite IH; auto.
      - destruct l1; [discriminate|]. simpl in *. rewrite IH; auto. }
    apply in_map_iff. exists u. split; [exact EU|]. apply (FULL u k c'); auto.
    - apply (rd_le lmin lmax lmin u); auto. fold m. change (red lmin lmax u) with (eraseDummies m u). now rewrite EU.
    - apply (rd_le lmin lmax u k); auto; [now apply v_sel|]. change (red lmin lmax u) with (eraseDummies m u). now rewrite EU. }
  rewrite CE. assert (IK : In (red lmin lmax t) (sLevelsOf s)) by (now apply (inScheme_K lmin lmax given VS faults)).
  destruct (val_admissible integral s w _ Fe IK (lexsorted_NoDup _ HS)) as (A1 & A2 & A3).
  split; auto. split; auto. split; auto. intros HO HT. apply (optimal_one _ _ integral s w _ W HO IK).
  intros f Hf HLE. unfold s, theSetup in Hf. cbn [sValid] in Hf. apply in_map_iff in Hf as (g & <- & Hg). apply filter_In in Hg as [Hg T].
  rewrite Forall_forall in HF. pose proof (HF g Hg) as Hk. destruct (B g Hk) as [B1 B2].
  apply (HT g Hg); [now apply topFault_onTop|]. apply (rd_le lmin lmax g t); auto.
  - rewrite (v_mask lmin lmax given VS). auto.
  - rewrite (v_mask lmin lmax given VS). apply Forall2_length in Ht. auto.
  - now apply v_sel.
  - apply v_sel; auto. eapply inScheme_max; eauto.
Qed.

(** ... otherwise the coefficients of levels outside the scheme are dropped: in the classical scheme for levels (1,1) to
    (3,3), without the grids for fault tolerance, losing the grid (2,2) gives coefficients that add up to 2. *)
Theorem C81_counted_at_most_once_refuted : exists lmin lmax given faults s,
  given = combine (sSpaces (classicalScheme lmin lmax)) (map zq (sCoeffs (classicalScheme lmin lmax))) /\
  validScheme lmin lmax given /\ Forall (fun f => In f (keys given)) faults /\
  construct lmin lmax given faults = Some s /\
  forall integral w, optimal integral s w ->
    exists out rec, getResults s w = Some (out, rec) /\ counted out lmin = zq 2.
Proof.
  set (given := combine (sSpaces (classicalScheme [1; 1] [3; 3])) (map zq (sCoeffs (classicalScheme [1; 1] [3; 3])))).
  assert (EG : given = [([1; 2], zq (-1)); ([1; 3], zq 1); ([2; 1], zq (-1)); ([2; 2], zq 1); ([3; 1], zq 1)]) by reflexivity.
  assert (P1 : (0 < zq 1)%Qc) by reflexivity.
  assert (VS : validScheme [1; 1] [3; 3] given).
  { rewrite EG. split; [|split; [|split; [|split; [|split]]]].
    - wfd.
    - repeat constructor; lia.
    - repeat constructor; lia.
    - congruence.
    - cbn [keys map fst]. repeat constructor; lia.
    - cbn [keys map fst]. repeat constructor.
      + exists [1; 3], (zq 1). split; [simpl; auto|]. split; auto. repeat constructor; lia.
      + exists [1; 3], (zq 1). split; [simpl; auto|]. split; auto. repeat constructor; lia.
      + exists [3; 1], (zq 1). split; [simpl; auto 6|]. split; auto. repeat constructor; lia.
      + exists [2; 2], (zq 1). split; [simpl; auto 6|]. split; auto. repeat constructor; lia.
      + exists [3; 1], (zq 1). split; [simpl; auto 6|]. split; auto. repeat constructor; lia. }
  assert (HF : Forall (fun f => In f (keys given)) [[2; 2]]) by (rewrite EG; repeat constructor; simpl; auto 6).
  exists [1; 1], [3; 3], given, [[2; 2]], (theSetup [1; 1] [3; 3] given [[2; 2]]).
  split; auto. split; auto. split; auto. split; [now apply construct_eq|].
  intros integral w HO. pose proof HO as [(L & _ & rows & CR & FR) _].
  pose proof (setup_wf _ _ _ VS _ HF) as W.
  set (s := theSetup [1; 1] [3; 3] given [[2; 2]]) in *.
  assert (EK : sLevelsOf s = [[1; 1]; [1; 2]; [1; 3]; [2; 1]; [2; 2]; [3; 1]]) by (vm_compute; reflexivity).
  assert (EV : sValid s = [[2; 2]]) by (vm_compute; reflexivity).
  assert (ER : constraints s = Some [[0; 0; 0; 0; 1; 0]]) by (vm_compute; reflexivity).
  rewrite ER in CR. injection CR as <-. rewrite EK in L. cbn [length] in L.
  do 6 (destruct w as [|? w]; [discriminate|]). destruct w; [|discriminate].
  assert (ONE : forall b, In b (sLevelsOf s) -> ~ Forall2 Z.le [2; 2] b -> val (sLevelsOf s) [q; q0; q1; q2; q3; q4] b = 1%Qc).
  { intros b Hb HL. apply (optimal_one _ _ integral s _ _ W HO Hb). rewrite EV. intros f [<-|[]]. exact HL. }
  rewrite EK in ONE.
  assert (N : forall x y, (x < 2 \/ y < 2) -> ~ Forall2 Z.le [2; 2] [x; y]) by (intros x y H F; inversion F as [|? ? ? ? A B]; inversion B as [|? ? ? ? C D]; lia).
  pose proof (ONE [1; 1] ltac:(simpl; auto) (N 1 1 ltac:(lia))) as E0. pose proof (ONE [1; 2] ltac:(simpl; auto) (N 1 2 ltac:(lia))) as E1.
  pose proof (ONE [1; 3] ltac:(simpl; auto) (N 1 3 ltac:(lia))) as E2. pose proof (ONE [2; 1] ltac:(simpl; auto 6) (N 2 1 ltac:(lia))) as E3.
  pose proof (ONE [3; 1] ltac:(simpl; auto 8) (N 3 1 ltac:(lia))) as E5.
  cbn in E0, E1, E2, E3, E5. inv FR. cbn [dot] in H1.
  assert (E4 : q3 = 0%Qc). { rewrite <- H1. rewrite zq_0. change (zq 1) with 1%Qc. ring. }
  subst. eexists _, _. split; [vm_compute; reflexivity|]. apply Qc_is_canon. vm_compute. reflexivity.
Qed.

(** The parameters as they are set up for a scheme: task [i] has the [i]-th grid. *)
Definition paramsOf (sc : Scheme) : params :=
  setLevelsCoeffs noParams (zseq 0 (length (sSpaces sc))) (sSpaces sc) (map zq (sCoeffs sc)).
(** The scheme used with fault tolerance (combi_example_faults.cpp:85-88, ProcessManager.cpp:344-349). *)
Definition ftScheme (lmin lmax : list Z) : Scheme := makeFaultTolerant lmax (adaptiveScheme lmin lmax).

Lemma paramsOf_start : forall sc, paramsOf sc = startParams (sSpaces sc) (map zq (sCoeffs sc)).
Proof. reflexivity. Qed.

Section IsoParams.
Variables (lmin : list Z) (c : Z).
Hypothesis Hne : lmin <> [].
Hypothesis HP : Forall (fun x => 1 <= x) lmin.
Hypothesis Hc : 1 <= c.
Let lmax := map (fun x => x + c) lmin.
Let sc := ftScheme lmin lmax.
Let p := paramsOf sc.

Lemma iso_dims : Forall (fun l => length l = length lmin) (sSpaces sc).
Proof.
  apply Forall_forall. intros l Hl. apply (iso_levels lmin c Hne HP Hc) in Hl as [Hl _]. apply Forall2_length in Hl. auto.
Qed.
Lemma iso_lens : length (map zq (sCoeffs sc)) = length (sSpaces sc).
Proof. rewrite map_length. now apply iso_len. Qed.
Lemma iso_nodup : NoDup (sSpaces sc).
Proof. now apply iso_NoDup. Qed.

Lemma iso_start_wf : wfDict (length lmin) (pDict p).
Proof. destruct (start_spec lmin (sSpaces sc) (map zq (sCoeffs sc)) iso_dims iso_lens iso_nodup) as ((_ & W) & _). exact W. Qed.
Lemma iso_start_keys : forall l, In l (keys (pDict p)) <-> isoLevel lmin c l.
Proof.
  intros l. unfold p. rewrite paramsOf_start, (start_keys lmin) by (auto using iso_dims, iso_lens, iso_nodup). now apply iso_levels.
Qed.
Lemma iso_start_top : forall l x, In (l, x) (pDict p) -> zsum l = zsum lmin + c -> (0 < x)%Qc.
Proof.
  intros l x Hx E. pose proof (in_map fst _ _ Hx) as Hk. cbn [fst] in Hk. fold (keys (pDict p)) in Hk.
  apply iso_start_keys, (iso_levels lmin c Hne HP Hc) in Hk. apply (In_nth _ _ []) in Hk as (j & Hj & En).
  destruct (start_spec lmin (sSpaces sc) (map zq (sCoeffs sc)) iso_dims iso_lens iso_nodup) as (_ & A & _).
  destruct (A (Z.of_nat j) ltac:(unfold sc, ftScheme, lmax; lia)) as (_ & _ & _ & F). rewrite Nat2Z.id in F.
  change (sSpaces (makeFaultTolerant (map (fun y => y + c) lmin) (adaptiveScheme lmin (map (fun z => z + c) lmin)))) with (sSpaces sc) in En, Hj.
  rewrite En in F. change (startParams (sSpaces sc) (map zq (sCoeffs sc))) with p in F.
  rewrite (In_dfind l x) in F; auto; [|apply (wf_NoDup _ _ iso_start_wf)]. injection F as ->.
  rewrite (nth_indep _ _ (zq 0)) by (rewrite iso_lens; exact Hj). rewrite (map_nth zq).
  pose proof (iso_nth lmin c Hne HP Hc j Hj) as N. change (nth j (sCoeffs sc) 0 = wcoef (length lmin - 1) (zsum lmin + c - zsum (nth j (sSpaces sc) []))) in N.
  rewrite N, En, E, Z.sub_diag, wcoef_0. reflexivity.
Qed.
Lemma iso_start_valid : validScheme lmin lmax (pDict p).
Proof. apply iso_valid; auto using iso_start_wf, iso_start_keys. exact iso_start_top. Qed.
End IsoParams.

(** C82: with the grids for fault tolerance and the same span of levels in all dimensions, if a grid of the two finest
    diagonals fails, the new coefficients of the grids containing a subspace of the down set add up to a number between 0
    and 1, and to 1 if the subspace is in no failed grid of the two finest diagonals; from a span of 2 on the sum of all
    coefficients is 1 ... *)
Theorem C82_coefficients_after_faults_partial : forall lmin c faults integral w s, lmin <> [] -> Forall (fun x => 1 <= x) lmin -> 1 <= c ->
  let lmax := map (fun x => x + c) lmin in
  let sc := ftScheme lmin lmax in
  let p := paramsOf sc in
  let n := length (sSpaces sc) in
  Forall (fun i => 0 <= i < Z.of_nat n) faults ->
  (exists i, In i faults /\ zsum lmin + c - 1 <= zsum (getLevel p i)) ->
  programOf p lmin lmax faults = Some s -> optimal integral s w ->
  exists r, recomputeOptimum p lmin lmax faults w = Some r /\
    (forall t, Forall2 Z.le lmin t -> zsum t <= zsum lmin + c ->
       let total := qsum (map (fun i => if covers t (getLevel p i) then getCoeff (rParams r) i else 0%Qc) (zseq 0 n)) in
       (0 <= total)%Qc /\ (total <= 1)%Qc /\
       ((forall i, In i faults -> zsum lmin + c - 1 <= zsum (getLevel p i) -> ~ Forall2 Z.le (getLevel p i) t) -> total = 1%Qc)) /\
    (2 <= c -> qsum (map (getCoeff (rParams r)) (zseq 0 n)) = 1%Qc).
Proof.
  intros lmin c faults integral w s Hne HP Hc lmax sc p n HF HT EP HO.
  pose proof (iso_dims lmin c Hne HP Hc) as D. pose proof (iso_lens lmin c Hne HP Hc) as L. pose proof (iso_nodup lmin c Hne HP Hc) as ND.
  fold lmax in D, L, ND. fold sc in D, L, ND.
  pose proof (iso_start_valid lmin c Hne HP Hc) as VS. fold lmax in VS. fold sc in VS. fold p in VS.
  change p with (startParams (sSpaces sc) (map zq (sCoeffs sc))) in EP.
  rewrite (program_eq lmin lmax (sSpaces sc) (map zq (sCoeffs sc)) D L ND VS faults HF) in EP. injection EP as <-.
  set (lev := fun i => nth (Z.to_nat i) (sSpaces sc) []) in *.
  change (startParams (sSpaces sc) (map zq (sCoeffs sc))) with p in HO.
  pose proof HO as [(Lw & _) _].
  assert (GL : forall i, 0 <= i < Z.of_nat n -> getLevel p i = lev i).
  { intros i Hi. unfold p. rewrite paramsOf_start. now apply (getLevel_lev lmin). }
  assert (WF := iso_start_wf lmin c Hne HP Hc). assert (KY := iso_start_keys lmin c Hne HP Hc). assert (TP := iso_start_top lmin c Hne HP Hc).
  fold lmax in WF, KY, TP. fold sc in WF, KY, TP. fold p in WF, KY, TP.
  rewrite Forall_forall in HF.
  assert (LI : forall i, 0 <= i < Z.of_nat n -> isoLevel lmin c (lev i)).
  { intros i Hi. apply (iso_levels lmin c Hne HP Hc). apply nth_In. unfold n, sc, ftScheme, lmax in Hi. lia. }
  assert (TF : forall i, 0 <= i < Z.of_nat n -> (topFault lmin lmax (lev i) = true <-> zsum lmin + c - 1 <= zsum (lev i))).
  { intros i Hi. destruct (LI i Hi) as [A B]. rewrite (iso_topFault lmin c (pDict p) Hne HP Hc WF KY TP) by (apply Forall2_length in A; auto).
    rewrite orb_true_iff, !Z.eqb_eq. lia. }
  assert (HT' : exists i, In i faults /\ topFault lmin lmax (lev i) = true).
  { destruct HT as (i & Hi & T). exists i. split; auto. apply TF; auto. rewrite <- GL by auto. exact T. }
  assert (FK : Forall (fun f => In f (keys (pDict p))) (map lev faults)).
  { apply (faults_keys lmin (sSpaces sc) (map zq (sCoeffs sc)) D L ND). apply Forall_forall. exact HF. }
  eexists. split; [unfold p; rewrite paramsOf_start; apply (recompute_eq lmin lmax (sSpaces sc) (map zq (sCoeffs sc)) D L ND); auto; apply Forall_forall; exact HF|].
  cbn [rParams]. set (q := afterParams _ _ _ _ _ _).
  set (nc := newc lmin lmax (pDict p) (map lev faults) w) in *.
  assert (GC : forall i, 0 <= i < Z.of_nat n -> getCoeff q i = nc (lev i)).
  { intros i Hi. destruct (after_spec lmin lmax (sSpaces sc) (map zq (sCoeffs sc)) D L ND faults w Lw i Hi) as (_ & E & _). exact E. }
  assert (TOT : forall t, Forall2 Z.le lmin t -> zsum t <= zsum lmin + c ->
    qsum (map (fun i => if covers t (getLevel p i) then getCoeff q i else 0%Qc) (zseq 0 n)) = val (sLevelsOf (theSetup lmin lmax (pDict p) (map lev faults))) w t).
  { intros t H1 H2. pose proof (iso_counted lmin c (pDict p) Hne HP Hc WF KY TP (map lev faults) FK integral w t HO H1 H2) as IC.
    fold lmax in IC. rewrite <- IC.
    transitivity (qsum (map (fun k => if vgeb k t then nc k else 0%Qc) (sSpaces sc))).
    - assert (EM : map lev (zseq 0 n) = sSpaces sc).
      { transitivity (map (getLevel p) (zseq 0 n)).
        - apply map_ext_in. intros i Hi. apply zseq_In in Hi. symmetry. apply GL. lia.
        - unfold p. rewrite paramsOf_start. now apply (levels_again lmin). }
      transitivity (qsum (map (fun k => if vgeb k t then nc k else 0%Qc) (map lev (zseq 0 n)))); [|now rewrite EM].
      rewrite map_map. apply qs_ext. intros i Hi. apply zseq_In in Hi. rewrite GL, GC by lia.
      rewrite covers_vgeb; auto. destruct (LI i ltac:(lia)) as [A _]. apply Forall2_length in A. apply Forall2_length in H1. lia.
    - apply qs_perm, Permutation_map, NoDup_Permutation; auto.
      + apply (wf_NoDup _ _ WF).
      + intros l. rewrite KY. apply (iso_levels lmin c Hne HP Hc). }
  assert (IK : forall t, Forall2 Z.le lmin t -> zsum t <= zsum lmin + c -> In t (sLevelsOf (theSetup lmin lmax (pDict p) (map lev faults)))).
  { intros t H1 H2. apply (iso_K lmin c (pDict p) Hne HP Hc WF KY TP). auto. }
  assert (ONE : forall t, Forall2 Z.le lmin t -> zsum t <= zsum lmin + c ->
    (forall i, In i faults -> zsum lmin + c - 1 <= zsum (getLevel p i) -> ~ Forall2 Z.le (getLevel p i) t) ->
    val (sLevelsOf (theSetup lmin lmax (pDict p) (map lev faults))) w t = 1%Qc).
  { intros t H1 H2 H3. apply (iso_one lmin c (pDict p) Hne HP Hc WF KY TP (map lev faults) FK integral w t HO H1 H2).
    intros f Hf T. apply in_map_iff in Hf as (i & <- & Hi). rewrite <- GL in * by auto. now apply H3. }
  split.
  - intros t H1 H2. rewrite TOT by auto.
    pose proof (setup_wf lmin lmax (pDict p) VS (map lev faults) FK) as (_ & _ & HS & _).
    destruct HO as [Fe HO'].
    destruct (val_admissible integral _ w _ Fe (IK t H1 H2) (lexsorted_NoDup _ HS)) as (A1 & A2 & _).
    split; auto.
  - intros H2. transitivity (qsum (map (fun i => if covers lmin (getLevel p i) then getCoeff q i else 0%Qc) (zseq 0 n))).
    + apply qs_ext. intros i Hi. apply zseq_In in Hi. rewrite GL by lia. destruct (LI i ltac:(lia)) as [A _].
      rewrite covers_vgeb by (apply Forall2_length in A; auto).
      assert (V : vgeb (lev i) lmin = true) by (apply vgeb_spec; auto; apply Forall2_length in A; auto). now rewrite V.
    + rewrite TOT by (auto using F2le_refl; lia). apply ONE; [apply F2le_refl|lia|].
      intros i Hi T HLE. rewrite GL in * by auto. apply Forall2_le_sum in HLE. lia.
Qed.

(** ... with different spans the scheme contains grids twice, with coefficients 1 and 0; the parameters keep the last
    value, no grid is left with a positive coefficient, and the linear program has no variable for the failed grid. *)
Theorem C82_coefficients_after_faults_refuted : exists lmin lmax s, Forall2 Z.lt lmin lmax /\ Forall (fun x => 1 <= x) lmin /\
  let sc := ftScheme lmin lmax in
  let p := paramsOf sc in
  programOf p lmin lmax [3] = Some s /\ nth 3 (sCoeffs sc) 0 = 1 /\ getLevel p 3 = [2; 2] /\
  numFaults s = 1%nat /\ sLevelsOf s = [] /\ constraints s = None /\ forall w, recomputeOptimum p lmin lmax [3] w = None.
Proof.
  exists [1; 1], [3; 6]. eexists. split; [repeat constructor; lia|]. split; [repeat constructor; lia|].
  cbv zeta. split; [vm_compute; reflexivity|]. split; [vm_compute; reflexivity|]. split; [vm_compute; reflexivity|].
  split; [vm_compute; reflexivity|]. split; [vm_compute; reflexivity|]. split; [vm_compute; reflexivity|].
  intros w. vm_compute. reflexivity.
Qed.

Lemma setDiff_NoDup : forall a b, NoDup a -> NoDup (setDiff a b).
Proof.
  assert (S : forall a b x, In x (setDiff a b) -> In x a).
  { induction a as [|y a IH]; intros b x H; [destruct H|]. induction b as [|z b IHb]; cbn [setDiff] in H; auto.
    destruct (y <? z); [destruct H as [->|H]; [now left|right; now apply (IH (z :: b))]|]. destruct (z <? y); [now apply IHb|right; now apply (IH b)]. }
  induction a as [|y a IH]; intros b ND; [constructor|]. inv ND. induction b as [|z b IHb]; cbn [setDiff]; [now constructor|].
  destruct (y <? z); [constructor; auto; intros K; now apply S in K|]. destruct (z <? y); auto.
Qed.
Lemma NoDup_app_intro : forall (a b : list Z), NoDup a -> NoDup b -> (forall x, In x a -> In x b -> False) -> NoDup (a ++ b).
Proof.
  induction a as [|x a IH]; intros b Na Nb D; auto. inv Na. cbn [app]. constructor.
  - rewrite in_app_iff. intros [K|K]; [contradiction|]. apply (D x); [now left|auto].
  - apply IH; auto. intros y Hy. apply D. now right.
Qed.
(** C83: recomputeOptimumCoefficients when a grid of the two finest diagonals fails: the failed tasks are sorted and split
    into those to redistribute, whose new coefficient is 0, and those to recompute, whose new coefficient is not 0; the
    levels stay, and the map from levels to coefficients agrees with the coefficients of the tasks ... *)
Theorem C83_failed_tasks_split_partial : forall lmin lmax levels coeffs faults integral w s,
  Forall (fun l => length l = length lmin) levels -> length coeffs = length levels -> NoDup levels ->
  let n := length levels in
  let p := setLevelsCoeffs noParams (zseq 0 n) levels coeffs in
  validScheme lmin lmax (pDict p) -> Forall (fun i => 0 <= i < Z.of_nat n) faults -> NoDup faults ->
  (exists i, In i faults /\ onTop lmin lmax (nth (Z.to_nat i) levels [])) ->
  programOf p lmin lmax faults = Some s -> feasible integral s w ->
  exists r, recomputeOptimum p lmin lmax faults w = Some r /\
    Permutation (rFaults r) faults /\ StronglySorted Z.lt (rFaults r) /\
    Permutation (rRedistribute r ++ rRecompute r) faults /\
    (forall i, In i (rRedistribute r) -> ~ In i (rRecompute r) /\ getCoeff (rParams r) i = 0%Qc) /\
    (forall i, In i (rRecompute r) -> getCoeff (rParams r) i <> 0%Qc /\ ~ onTop lmin lmax (nth (Z.to_nat i) levels [])) /\
    (forall i, 0 <= i < Z.of_nat n -> getLevel (rParams r) i = nth (Z.to_nat i) levels [] /\
       dfind (nth (Z.to_nat i) levels []) (pDict (rParams r)) = Some (getCoeff (rParams r) i)).
Proof.
  intros lmin lmax levels coeffs faults integral w s D L ND n p VS HF NF HT EP Fe.
  change p with (startParams levels coeffs) in EP.
  rewrite (program_eq lmin lmax levels coeffs D L ND VS faults HF) in EP. injection EP as <-.
  pose proof Fe as (Lw & _ & _). pose proof VS as (_ & _ & _ & NE & B & _). rewrite Forall_forall in B.
  set (lev := fun i => nth (Z.to_nat i) levels []) in *.
  assert (FK := faults_keys lmin levels coeffs D L ND faults HF). fold lev in FK. change (startParams levels coeffs) with p in *.
  rewrite Forall_forall in HF.
  assert (TO : forall i, In i faults -> (topFault lmin lmax (lev i) = true <-> onTop lmin lmax (lev i))).
  { intros i Hi. rewrite Forall_forall in FK. destruct (B (lev i)) as [B1 B2]; [apply FK; now apply in_map|]. now apply topFault_onTop. }
  assert (HT' : exists i, In i faults /\ topFault lmin lmax (lev i) = true).
  { destruct HT as (i & Hi & O). exists i. split; auto. now apply TO. }
  assert (AS := after_spec lmin lmax levels coeffs D L ND faults w Lw).
  eexists. split; [apply (recompute_eq lmin lmax levels coeffs D L ND VS faults); auto; apply Forall_forall; exact HF|].
  cbn [rParams rFaults rRedistribute rRecompute]. set (q := afterParams _ _ _ _ _ _) in *.
  set (ag := again _ _ _ _ _ _).
  assert (SO : forall l, NoDup l -> StronglySorted Z.lt (sortZ l)).
  { intros l Nl. apply sorted_NoDup_lt; [apply sortZ_sorted|]. apply (Permutation_NoDup (Permutation_sym (sortZ_perm l)) Nl). }
  assert (IN : forall l x, In x (sortZ l) <-> In x l).
  { intros l x. split; apply Permutation_in; [apply sortZ_perm|apply Permutation_sym, sortZ_perm]. }
  assert (DI : forall x, In x (setDiff (sortZ faults) (sortZ (filter ag faults))) <-> In x faults /\ ag x = false).
  { intros x. rewrite setDiff_In by (apply SO; auto; now apply NoDup_filter). rewrite !IN, filter_In.
    destruct (ag x); split; intros [A C]; split; auto; try discriminate.
    - exfalso. apply C. auto.
    - intros [_ E]. discriminate. }
  assert (CO : forall i, 0 <= i < Z.of_nat n -> getCoeff q i = newc lmin lmax (pDict p) (map lev faults) w (lev i)).
  { intros i Hi. destruct (AS i Hi) as (_ & E & _). exact E. }
  split; [apply sortZ_perm|]. split; [now apply SO|]. split; [|split; [|split]].
  - apply NoDup_Permutation; auto.
    + apply NoDup_app_intro.
      * apply setDiff_NoDup. apply (Permutation_NoDup (Permutation_sym (sortZ_perm faults)) NF).
      * apply (Permutation_NoDup (Permutation_sym (sortZ_perm _))). now apply NoDup_filter.
      * intros x H1 H2. apply DI in H1 as [_ H1]. apply IN, filter_In in H2 as [_ H2]. congruence.
    + intros i. rewrite in_app_iff, DI, IN, filter_In. destruct (ag i); intuition discriminate.
  - intros i Hi. apply DI in Hi as [Hi E]. split; [rewrite IN, filter_In; intros [_ C]; congruence|].
    rewrite CO by (now apply HF). unfold ag, again in E. fold lev in E. change (startParams levels coeffs) with p in E.
    change (nth (Z.to_nat i) levels []) with (lev i) in E. destruct (topFault lmin lmax (lev i)) eqn:T; cbn [negb andb] in E.
    + unfold newc. apply (fault_coef _ _ integral _ w _ (setup_wf lmin lmax (pDict p) VS (map lev faults) FK) Fe).
      unfold theSetup. cbn [sValid]. apply in_map, filter_In. split; [now apply in_map|exact T].
    + revert E. match goal with |- context [Qc_eq_dec ?a ?b] => destruct (Qc_eq_dec a b) as [Z0|] end; [intros _; exact Z0|discriminate].
  - intros i Hi. apply IN, filter_In in Hi as [Hi E]. unfold ag, again in E. fold lev in E. change (startParams levels coeffs) with p in E.
    apply andb_prop in E as [E1 E2]. rewrite CO by (now apply HF). split.
    + revert E2. match goal with |- context [Qc_eq_dec ?a ?b] => destruct (Qc_eq_dec a b) as [|Z0] end; [discriminate|intros _; exact Z0].
    + intros O. apply TO in O; auto. change (nth (Z.to_nat i) levels []) with (lev i) in E1. rewrite O in E1. discriminate.
  - intros i Hi. destruct (AS i Hi) as (A1 & A2 & _ & A4). split; auto. rewrite A4, A2. reflexivity.
Qed.

(** ... if only grids of coarser diagonals fail nothing happens: in three dimensions the failed grid (1,1,1) of the third
    diagonal keeps its coefficient 1 and is neither redistributed nor recomputed. *)
Theorem C83_failed_tasks_split_refuted : exists lmin lmax i, Forall2 Z.lt lmin lmax /\ Forall (fun x => 1 <= x) lmin /\
  let p := paramsOf (ftScheme lmin lmax) in
  0 <= i < Z.of_nat (length (sSpaces (ftScheme lmin lmax))) /\ getCoeff p i = 1%Qc /\
  forall w, recomputeOptimum p lmin lmax [i] w = Some (Recomputed p [i] [] []).
Proof.
  exists [1; 1; 1], [3; 3; 3], 0. split; [repeat constructor; lia|]. split; [repeat constructor; lia|].
  cbv zeta. split; [split; [lia|vm_compute; reflexivity]|]. split; [apply Qc_is_canon; vm_compute; reflexivity|].
  intros w. vm_compute. reflexivity.
Qed.

(** C84: restoreCombischeme gives every task of the scheme the coefficient of its grid if the scheme contains every grid once
    and every grid belongs to a task; other tasks keep their coefficient ... *)
Lemma restore_loop : forall n sp (co : list Z) q, length co = length sp -> NoDup sp -> wfDict n (pDict q) -> Forall (fun l => length l = n) sp ->
  (forall l, In l sp -> exists i, dfind l (pIds q) = Some i /\ zfind i (pLevels q) = Some l) ->
  let q' := fold_left (fun q lc => let (i, q') := getID q (fst lc) in setCoeff q' i (zq (snd lc))) (combine sp co) q in
  pLevels q' = pLevels q /\ pIds q' = pIds q /\
  (forall j i, (j < length sp)%nat -> dfind (nth j sp []) (pIds q) = Some i ->
     zfind i (pCoeffs q') = Some (zq (nth j co 0)) /\ dfind (nth j sp []) (pDict q') = Some (zq (nth j co 0))) /\
  (forall i, (forall l, In l sp -> dfind l (pIds q) <> Some i) -> zfind i (pCoeffs q') = zfind i (pCoeffs q)) /\
  (forall l, ~ In l sp -> dfind l (pDict q') = dfind l (pDict q)).
Proof.
  intros n. induction sp as [|l sp IH]; intros co q Lc ND W FL HK.
  - destruct co; [|discriminate]. cbn [combine fold_left]. repeat split; auto. all: intros; simpl in *; lia.
  - destruct co as [|c co]; [discriminate|]. cbn [combine fold_left fst snd]. destruct (HK l (or_introl eq_refl)) as (i & Hi & Hl).
    assert (EG : getID q l = (i, q)) by (unfold getID; now rewrite Hi). rewrite EG. apply NoDup_cons_iff in ND as [Nl ND]. pose proof (Forall_inv FL) as Ll. apply Forall_inv_tail in FL.
    set (q1 := setCoeff q i (zq c)).
    assert (E1 : pLevels q1 = pLevels q) by (unfold q1, setCoeff; cbn [pLevels]; now rewrite Hl).
    assert (E2 : pIds q1 = pIds q) by reflexivity.
    assert (E3 : pDict q1 = dassign l (zq c) (pDict q)) by (unfold q1, setCoeff, getLevel; cbn [pDict]; now rewrite Hl).
    assert (E4 : pCoeffs q1 = zassign i (zq c) (pCoeffs q)) by reflexivity.
    destruct (IH co q1) as (I1 & I2 & I3 & I4 & I5); auto.
    + rewrite E3. now apply wf_dassign.
    + intros k Hk. rewrite E1, E2. apply HK. now right.
    + cbv zeta in *. fold q1. rewrite I1, I2, E1, E2. split; auto. split; auto. split; [|split].
      * intros [|j] i' Hj Hi'; cbn [nth] in *.
        -- rewrite Hi in Hi'. injection Hi' as <-. rewrite I4, I5; auto.
           ++ rewrite E3, E4, zfind_zassign, Z.eqb_refl, (dfind_dassign n) by auto. destruct (list_eq_dec Z.eq_dec l l); [auto|congruence].
           ++ intros k Hk Hik. rewrite E2 in Hik. destruct (HK k (or_intror Hk)) as (i2 & A1 & A2). rewrite Hik in A1. injection A1 as <-.
              rewrite Hl in A2. injection A2 as <-. contradiction.
        -- apply I3; [simpl in Hj; lia|]. now rewrite E2.
      * intros i' Hi'. rewrite I4; [|intros k Hk; rewrite E2; apply Hi'; now right]. rewrite E4, zfind_zassign.
        destruct (Z.eqb_spec i' i); auto. subst. exfalso. now apply (Hi' l (or_introl eq_refl)).
      * intros k Hk. rewrite I5 by (intros H; apply Hk; now right). rewrite E3, (dfind_dassign n) by auto.
        destruct (list_eq_dec Z.eq_dec k l); auto. subst. exfalso. apply Hk. now left.
Qed.

Theorem C84_restored_partial : forall lmin lmax p, let sc := ftScheme lmin lmax in
  length (sCoeffs sc) = length (sSpaces sc) -> NoDup (sSpaces sc) -> wfDict (length lmin) (pDict p) ->
  Forall (fun l => length l = length lmin) (sSpaces sc) ->
  (forall l, In l (sSpaces sc) -> exists i, dfind l (pIds p) = Some i /\ zfind i (pLevels p) = Some l) ->
  let q := restoreCombischeme p lmin lmax in
  (forall j i, (j < length (sSpaces sc))%nat -> dfind (nth j (sSpaces sc) []) (pIds p) = Some i ->
     getCoeff q i = zq (nth j (sCoeffs sc) 0) /\ dfind (nth j (sSpaces sc) []) (pDict q) = Some (zq (nth j (sCoeffs sc) 0))) /\
  (forall i, (forall l, In l (sSpaces sc) -> dfind l (pIds p) <> Some i) -> getCoeff q i = getCoeff p i) /\
  (forall i, getLevel q i = getLevel p i).
Proof.
  intros lmin lmax p sc Lc ND W FL HK q.
  destruct (restore_loop (length lmin) (sSpaces sc) (sCoeffs sc) p Lc ND W FL HK) as (I1 & I2 & I3 & I4 & I5).
  change (fold_left _ _ p) with q in *. split; [|split].
  - intros j i Hj Hi. destruct (I3 j i Hj Hi) as [A B]. split; auto. unfold getCoeff. now rewrite A.
  - intros i Hi. unfold getCoeff. now rewrite I4.
  - intros i. unfold getLevel. now rewrite I1.
Qed.

(** With the same span in all dimensions, recomputing the coefficients after any faults and restoring the scheme gives all
    tasks the coefficients they started with. *)
Theorem C84_recompute_restore_partial : forall lmin c faults integral w s r i, lmin <> [] -> Forall (fun x => 1 <= x) lmin -> 1 <= c ->
  let lmax := map (fun x => x + c) lmin in
  let sc := ftScheme lmin lmax in
  let p := paramsOf sc in
  let n := length (sSpaces sc) in
  Forall (fun i => 0 <= i < Z.of_nat n) faults -> programOf p lmin lmax faults = Some s -> feasible integral s w ->
  recomputeOptimum p lmin lmax faults w = Some r -> 0 <= i < Z.of_nat n ->
  getCoeff (restoreCombischeme (rParams r) lmin lmax) i = getCoeff p i /\
  getCoeff p i = zq (nth (Z.to_nat i) (sCoeffs sc) 0) /\
  getLevel (restoreCombischeme (rParams r) lmin lmax) i = nth (Z.to_nat i) (sSpaces sc) [].
Proof.
  intros lmin c faults integral w s r i Hne HP Hc lmax sc p n HF EP Fe ER Hi.
  pose proof (iso_dims lmin c Hne HP Hc) as D. pose proof (iso_lens lmin c Hne HP Hc) as L. pose proof (iso_nodup lmin c Hne HP Hc) as ND.
  fold lmax in D, L, ND. fold sc in D, L, ND.
  pose proof (iso_start_valid lmin c Hne HP Hc) as VS. fold lmax in VS. fold sc in VS. fold p in VS.
  pose proof (start_spec lmin (sSpaces sc) (map zq (sCoeffs sc)) D L ND) as (W & A & _).
  change (startParams (sSpaces sc) (map zq (sCoeffs sc))) with p in W, A.
  assert (CP : getCoeff p i = zq (nth (Z.to_nat i) (sCoeffs sc) 0)).
  { unfold getCoeff. destruct (A i Hi) as (_ & -> & _). rewrite (nth_indep _ _ (zq 0)) by (rewrite L; unfold n in Hi; lia). apply map_nth. }
  change p with (startParams (sSpaces sc) (map zq (sCoeffs sc))) in EP.
  rewrite (program_eq lmin lmax (sSpaces sc) (map zq (sCoeffs sc)) D L ND VS faults HF) in EP. injection EP as <-.
  pose proof Fe as (Lw & _ & _).
  assert (RP : wfDict (length lmin) (pDict (rParams r)) /\ forall j, 0 <= j < Z.of_nat n ->
     dfind (nth (Z.to_nat j) (sSpaces sc) []) (pIds (rParams r)) = Some j /\ zfind j (pLevels (rParams r)) = Some (nth (Z.to_nat j) (sSpaces sc) [])).
  { unfold recomputeOptimum in ER. change p with (startParams (sSpaces sc) (map zq (sCoeffs sc))) in ER.
    rewrite (program_eq lmin lmax (sSpaces sc) (map zq (sCoeffs sc)) D L ND VS faults HF) in ER. cbv zeta in ER.
    change (startParams (sSpaces sc) (map zq (sCoeffs sc))) with p in ER.
    destruct (numFaults _ =? 0)%nat; [injection ER as <-|].
    - cbn [rParams]. split; [apply W|]. intros j Hj. destruct (A j Hj) as (A1 & _ & A3 & _). auto.
    - destruct (getResults _ w) as [[out rec]|]; [|discriminate]. injection ER as <-. cbn [rParams].
      rewrite (start_ids (sSpaces sc) (map zq (sCoeffs sc)) L : length (pLevels p) = length (sSpaces sc)).
      rewrite (levels_again lmin (sSpaces sc) (map zq (sCoeffs sc)) D L ND : map (getLevel p) (zseq 0 (length (sSpaces sc))) = sSpaces sc).
      destruct (setLevelsCoeffs_spec (length lmin) (sSpaces sc) (zseq 0 (length (sSpaces sc))) (map (newCoeff out) (sSpaces sc)) p W D) as ((_ & W2) & S2 & _); auto.
      + apply zseq_length.
      + apply map_length.
      + apply zseq_NoDup.
      + split; auto. intros j Hj. specialize (S2 (Z.to_nat j) ltac:(unfold n in Hj; lia)). rewrite zseq_nth in S2 by (unfold n in Hj; lia).
        replace (0 + Z.of_nat (Z.to_nat j)) with j in S2 by lia. tauto. }
  destruct RP as [RW RK].
  destruct (C84_restored_partial lmin lmax (rParams r)) as (T1 & _ & T3); auto.
  - fold sc. rewrite <- L. now rewrite map_length.
  - fold sc. intros l Hl. apply (In_nth _ _ []) in Hl as (j & Hj & <-). exists (Z.of_nat j).
    destruct (RK (Z.of_nat j) ltac:(unfold n; lia)) as [R1 R2]. rewrite Nat2Z.id in R1, R2. auto.
  - fold sc in T1. destruct (RK i Hi) as [R1 R2]. destruct (T1 (Z.to_nat i) i ltac:(unfold n in Hi; lia) R1) as [T _].
    split; [now rewrite T, CP|]. split; auto. rewrite T3. unfold getLevel. now rewrite R2.
Qed.

(** ... a grid of the scheme that belongs to no task overwrites the coefficient of task 0: (1,2) should have -1, but has 0
    after the grid (1,1), unknown in the scheme without fault tolerance; and a grid contained twice ends with the second
    coefficient, 0. *)
Theorem C84_restored_refuted :
  (exists lmin lmax, let p := paramsOf (classicalScheme lmin lmax) in
     Forall2 Z.lt lmin lmax /\ getLevel p 0 = [1; 2] /\ getCoeff p 0 = zq (-1) /\
     In ([1; 2], -1) (combine (sSpaces (ftScheme lmin lmax)) (sCoeffs (ftScheme lmin lmax))) /\
     getCoeff (restoreCombischeme p lmin lmax) 0 = 0%Qc) /\
  (exists lmin lmax, let p := paramsOf (adaptiveScheme lmin lmax) in
     Forall2 Z.lt lmin lmax /\ getLevel p 3 = [2; 2] /\ getCoeff p 3 = 1%Qc /\
     In ([2; 2], 1) (combine (sSpaces (ftScheme lmin lmax)) (sCoeffs (ftScheme lmin lmax))) /\
     getCoeff (restoreCombischeme p lmin lmax) 3 = 0%Qc).
Proof.
  split.
  - exists [1; 1], [3; 3]. cbv zeta. split; [repeat constructor; lia|]. split; [vm_compute; reflexivity|].
    split; [apply Qc_is_canon; vm_compute; reflexivity|]. split; [vm_compute; auto|]. apply Qc_is_canon; vm_compute; reflexivity.
  - exists [1; 1], [3; 6]. cbv zeta. split; [repeat constructor; lia|]. split; [vm_compute; reflexivity|].
    split; [apply Qc_is_canon; vm_compute; reflexivity|]. split; [vm_compute; auto 10|]. apply Qc_is_canon; vm_compute; reflexivity.
Qed.

(** C85: if there is a rank for every listed iteration, a process fails in exactly the listed pairs of iteration and
    rank ... *)
Theorem C85_static_faults_partial : forall its ranks ncombi rank, (length its <= length ranks)%nat ->
  exists b, failNow its ranks ncombi rank = Some b /\
    (b = true <-> exists j, (j < length its)%nat /\ nth j its 0 = ncombi /\ nth j ranks 0 = rank).
Proof.
  intros its ranks ncombi rank H. unfold failNow.
  assert (G : forall its idx, (idx + length its <= length ranks)%nat -> exists b, failFrom its idx ranks ncombi rank = Some b /\
    (b = true <-> exists j, (j < length its)%nat /\ nth j its 0 = ncombi /\ nth (idx + j) ranks 0 = rank)).
  { clear its H. induction its as [|x its IH]; intros idx H; cbn [failFrom length] in *.
    - exists false. split; auto. split; [discriminate|]. intros (j & Hj & _). lia.
    - destruct (IH (S idx) ltac:(lia)) as (b & E & I).
      assert (TAIL : (exists j, (j < length its)%nat /\ nth j its 0 = ncombi /\ nth (S idx + j) ranks 0 = rank) <->
                     (exists j, (0 < j < S (length its))%nat /\ nth j (x :: its) 0 = ncombi /\ nth (idx + j) ranks 0 = rank)).
      { split; intros (j & Hj & A & B).
        - exists (S j). replace (idx + S j)%nat with (S idx + j)%nat by lia. split; [lia|auto].
        - destruct j as [|j]; [lia|]. exists j. replace (S idx + j)%nat with (idx + S j)%nat by lia. split; [lia|auto]. }
      destruct (Z.eqb_spec x ncombi) as [->|Nx].
      + destruct (nth_error ranks idx) as [q|] eqn:EQ; [|apply nth_error_None in EQ; lia].
        apply (nth_error_nth _ _ 0) in EQ. destruct (Z.eqb_spec rank q) as [->|Nq].
        * exists true. split; auto. split; auto. intros _. exists 0%nat. split; [lia|]. split; auto. now rewrite Nat.add_0_r.
        * exists b. split; auto. rewrite I, TAIL. split; intros (j & Hj & A & B); exists j; split; auto; [lia|].
          destruct j as [|j]; [|lia]. rewrite Nat.add_0_r in B. congruence.
      + exists b. split; auto. rewrite I, TAIL. split; intros (j & Hj & A & B); exists j; split; auto; [lia|].
        destruct j as [|j]; [cbn [nth] in A; congruence|lia]. }
  destruct (G its 0%nat ltac:(lia)) as (b & E & I). exists b. split; auto.
Qed.

(** ... with fewer ranks than iterations the list of ranks is read past its end. *)
Theorem C85_static_faults_refuted : exists its ranks ncombi rank, In ncombi its /\ failNow its ranks ncombi rank = None.
Proof. exists [2; 5], [0], 5, 3. split; [simpl; auto|reflexivity]. Qed.

(** * Examples *)
Lemma qdot_mono : forall o w' w, Forall (fun x => (0 <= x)%Qc) o -> Forall2 Qcle w' w -> (qdot o w' <= qdot o w)%Qc.
Proof.
  induction o as [|a o IH]; intros w' w Ho H; [apply Qcle_refl|]. inv Ho. destruct H as [|x y w' w H F]; [apply Qcle_refl|].
  cbn [qdot]. apply Qcplus_le_compat; [|now apply IH]. rewrite (Qcmult_comm a x), (Qcmult_comm a y). now apply Qcmult_le_compat_r.
Qed.

(** Levels (1,1) to (3,3); the grids (2,2) and (1,1) fail. (2,2) gets coefficient 0, (1,1) is to be recomputed. *)
Definition exParams : params := paramsOf (ftScheme [1; 1] [3; 3]).
Definition exSetup : setup := theSetup [1; 1] [3; 3] (pDict exParams) [[1; 1]; [2; 2]].
Definition exW : list Qc := map zq [1; 1; 1; 1; 0; 1].
Lemma exKeys : keys (pDict exParams) = [[1; 1]; [1; 2]; [1; 3]; [2; 1]; [2; 2]; [3; 1]].
Proof. vm_compute. reflexivity. Qed.
Lemma objective_nonneg : forall s, Forall (fun x => (0 <= x)%Qc) (objective s).
Proof.
  intros s. apply Forall_forall. intros x Hx. unfold objective in Hx. apply in_map_iff in Hx as (l & <- & _).
  generalize (Z.to_nat (l1norm l)). induction n as [|n IH]; [discriminate|]. cbn [Qcpower].
  rewrite <- (Qcmult_0_l (Qcpower (Q2Qc (1 # 4)) n)). apply Qcmult_le_compat_r; [discriminate|exact IH].
Qed.
Lemma exW_optimal : forall integral, optimal integral exSetup exW.
Proof.
  intros integral.
  assert (A1 : admissible integral (zq 1)) by (split; [discriminate|split; [discriminate|right; apply zq_1]]).
  assert (A0 : admissible integral (zq 0)) by (split; [discriminate|split; [discriminate|left; apply zq_0]]).
  assert (EC : constraints exSetup = Some [[0; 0; 0; 0; 1; 0]]) by (vm_compute; reflexivity).
  assert (EL : length (sLevelsOf exSetup) = 6%nat) by (vm_compute; reflexivity). split.
  - split; [rewrite EL; reflexivity|]. split; [unfold exW; cbn [map]; repeat (constructor; [assumption|]); constructor|].
    exists [[0; 0; 0; 0; 1; 0]]. split; [exact EC|]. constructor; [|constructor]. apply Qc_is_canon. vm_compute. reflexivity.
  - intros w' (L & FA & rows & E & FR). rewrite EC in E. injection E as <-. rewrite EL in L. apply qdot_mono.
    + apply objective_nonneg.
    + do 6 (destruct w' as [|? w']; [discriminate|]). destruct w'; [|discriminate].
      repeat match goal with H : Forall _ (_ :: _) |- _ => inv H end.
      repeat match goal with H : admissible _ _ |- _ => destruct H as (_ & ? & _) end.
      cbn [dot] in *. assert (E4 : q3 = 0%Qc).
      { match goal with H : _ = 0%Qc |- _ => rewrite <- H end. rewrite zq_0, zq_1. ring. }
      unfold exW. cbn [map]. rewrite zq_0, zq_1. repeat constructor; auto. subst. apply Qcle_refl.
Qed.

Example C80_ex : validScheme [1; 1] [3; 3] (pDict exParams) /\ construct [1; 1] [3; 3] (pDict exParams) [[1; 1]; [2; 2]] = Some exSetup /\
  exists out, getResults exSetup exW = Some (out, [[1; 1]]) /\ map (fun p => (fst p, this (snd p))) out =
    [([1; 1], (-1 # 1)%Q); ([1; 2], (0 # 1)%Q); ([1; 3], (1 # 1)%Q); ([2; 1], (0 # 1)%Q); ([2; 2], (0 # 1)%Q); ([3; 1], (1 # 1)%Q)].
Proof.
  assert (V : validScheme [1; 1] [3; 3] (pDict exParams)) by (apply (iso_start_valid [1; 1] 2); [congruence|repeat constructor; lia|lia]).
  split; [exact V|]. split.
  { refine (construct_eq _ _ _ V [[1; 1]; [2; 2]] _). rewrite exKeys. constructor; [left; reflexivity|]. constructor; [|constructor].
    do 4 right. left. reflexivity. }
  eexists. split; [vm_compute; reflexivity|]. vm_compute. reflexivity.
Qed.
Example C81_ex : (forall t a c, Forall2 Z.le [1; 1] t -> In (a, c) (pDict exParams) -> (0 < c)%Qc -> Forall2 Z.le t a -> In t (keys (pDict exParams))) /\
  match getResults exSetup exW with Some (out, _) => counted out [1; 2] = 1%Qc /\ counted out [2; 2] = 0%Qc | None => False end.
Proof.
  split.
  - intros t a c Ht Ha Hc Hta. apply (in_map fst) in Ha. fold (keys (pDict exParams)) in Ha. cbn [fst] in Ha. rewrite exKeys in *.
    destruct t as [|x [|y [|? ?]]]; try (exfalso; apply Forall2_length in Ht; cbn in Ht; lia).
    inversion Ht as [|? ? ? ? Hx Ht']; subst. inversion Ht' as [|? ? ? ? Hy _]; subst.
    assert (B : x <= 3 /\ y <= 3 /\ x + y <= 4).
    { destruct Ha as [<-|[<-|[<-|[<-|[<-|[<-|[]]]]]]]; inversion Hta as [|? ? ? ? Gx Gt]; subst; inversion Gt; subst; lia. }
    assert (X : x = 1 \/ x = 2 \/ x = 3) by lia. assert (Y : y = 1 \/ y = 2 \/ y = 3) by lia.
    destruct X as [->|[->| ->]], Y as [->|[->| ->]]; try lia; cbn; auto 10.
  - vm_compute. split; apply Qc_is_canon; reflexivity.
Qed.
Example C82_ex : programOf exParams [1; 1] [3; 3] [5; 3] = Some exSetup /\ optimal false exSetup exW /\ getLevel exParams 3 = [2; 2] /\
  match recomputeOptimum exParams [1; 1] [3; 3] [5; 3] exW with
  | Some r => map (fun i => this (getCoeff (rParams r) i)) (zseq 0 6) = [0 # 1; 1 # 1; 0 # 1; 0 # 1; 1 # 1; -1 # 1]%Q
  | None => False
  end.
Proof.
  split; [|split; [apply exW_optimal|split; vm_compute; reflexivity]].
  unfold exParams. rewrite paramsOf_start.
  apply (program_eq [1; 1] [3; 3] (sSpaces (ftScheme [1; 1] [3; 3])) (map zq (sCoeffs (ftScheme [1; 1] [3; 3])))).
  - apply (iso_dims [1; 1] 2); [congruence|repeat constructor; lia|lia].
  - apply (iso_lens [1; 1] 2); [congruence|repeat constructor; lia|lia].
  - apply (iso_nodup [1; 1] 2); [congruence|repeat constructor; lia|lia].
  - apply (iso_start_valid [1; 1] 2); [congruence|repeat constructor; lia|lia].
  - change (length (sSpaces (ftScheme [1; 1] [3; 3]))) with 6%nat. repeat constructor; lia.
Qed.
Example C83_ex : onTop [1; 1] [3; 3] [2; 2] /\
  match recomputeOptimum exParams [1; 1] [3; 3] [5; 3] exW with
  | Some r => rFaults r = [3; 5] /\ rRedistribute r = [3] /\ rRecompute r = [5]
  | None => False
  end.
Proof. split; [left; reflexivity|vm_compute; auto]. Qed.
Example C84_ex :
  match recomputeOptimum exParams [1; 1] [3; 3] [5; 3] exW with
  | Some r => map (fun i => this (getCoeff (restoreCombischeme (rParams r) [1; 1] [3; 3]) i)) (zseq 0 6)
              = [-1 # 1; 1 # 1; -1 # 1; 1 # 1; 1 # 1; 0 # 1]%Q
  | None => False
  end.
Proof. vm_compute. reflexivity. Qed.
Example C85_ex : failNow [2; 5; 5] [1; 3; 4] 5 4 = Some true /\ failNow [2; 5; 5] [1; 3; 4] 5 1 = Some false.
Proof. auto. Qed.

Print Assumptions C80_failed_grids_avoided.
Print Assumptions C80_solvable.
Print Assumptions C81_counted_at_most_once_partial.
Print Assumptions C81_counted_at_most_once_refuted.
Print Assumptions C82_coefficients_after_faults_partial.
Print Assumptions C82_coefficients_after_faults_refuted.
Print Assumptions C83_failed_tasks_split_partial.
Print Assumptions C83_failed_tasks_split_refuted.
Print Assumptions C84_restored_partial.
Print Assumptions C84_recompute_restore_partial.
Print Assumptions C84_restored_refuted.
Print Assumptions C85_static_faults_partial.
Print Assumptions C85_static_faults_refuted.
