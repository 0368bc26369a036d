(** The adaptive scheme with fault-tolerance grids when all dimensions span the same number of levels, and the
    recomputed coefficients for it (FaultModel, CombiSchemeModel). *)
From Verif Require Import Base TensorModel TensorProofs LevelSetsModel LevelSetsProofs CombiSchemeModel CombiSchemeProofs DofProofs.
From Verif Require Import QcTools HierMassProofs InterpProofs CombiStepProofs FaultModel FaultProofs FaultParamProofs.
From Coq Require Import QArith Qcanon.
Open Scope Z_scope.
Ltac Zify.zify_post_hook ::= idtac.

Lemma wcoef_step : forall n q, 0 < q -> wcoef n q - wcoef n (q - 1) = wcoef (S n) q.
Proof.
  intros n q H. unfold wcoef. assert (E : signPow q = - signPow (q - 1)) by (rewrite <- signPow_succ; f_equal; lia).
  rewrite E. replace (Z.to_nat q) with (S (Z.to_nat (q - 1))) by lia. cbn [binom]. ring.
Qed.
Lemma wcoef_0 : forall n, wcoef n 0 = 1.
Proof. intros n. unfold wcoef. cbn [Z.to_nat]. now rewrite binom_0. Qed.

Definition cubeSum (a : list Z) (q : Z) : Z :=
  zsum (map (fun b => if zsum b <=? zsum a + q then signPow (zsum b - zsum a) else 0) (cart (map (fun x => zrange x (x + 2)) a))).

Lemma cubeSum_cons : forall x a q, cubeSum (x :: a) q = cubeSum a q - cubeSum a (q - 1).
Proof.
  intros x a q. unfold cubeSum. cbn [map cart]. rewrite zrange_cons, zrange_cons, zrange_nil by lia. cbn [flat_map].
  rewrite app_nil_r, map_app, zsum_app, !map_map. set (L := cart _). rewrite (zsum_cons x a).
  assert (E : forall l, zsum (map (fun b => if zsum (x + 1 :: b) <=? (x + zsum a) + q then signPow (zsum (x + 1 :: b) - (x + zsum a)) else 0) l)
    = - zsum (map (fun b => if zsum b <=? zsum a + (q - 1) then signPow (zsum b - zsum a) else 0) l)).
  { induction l as [|b l IH]; [reflexivity|]. cbn [map]. rewrite !zsum_cons, IH, ?zsum_cons.
    replace (x + 1 + zsum b - (x + zsum a)) with (zsum b - zsum a + 1) by lia. rewrite signPow_succ.
    destruct (Z.leb_spec (x + 1 + zsum b) (x + zsum a + q)), (Z.leb_spec (zsum b) (zsum a + (q - 1))); lia. }
  rewrite E. assert (E2 : forall l, zsum (map (fun b => if zsum (x :: b) <=? (x + zsum a) + q then signPow (zsum (x :: b) - (x + zsum a)) else 0) l)
    = zsum (map (fun b => if zsum b <=? zsum a + q then signPow (zsum b - zsum a) else 0) l)).
  { induction l as [|b l IH]; [reflexivity|]. cbn [map]. rewrite !zsum_cons, IH, ?zsum_cons.
    replace (x + zsum b - (x + zsum a)) with (zsum b - zsum a) by lia.
    destruct (Z.leb_spec (x + zsum b) (x + zsum a + q)), (Z.leb_spec (zsum b) (zsum a + q)); lia. }
  rewrite E2. lia.
Qed.

Lemma cubeSum_eq : forall a x q, cubeSum (x :: a) q = if 0 <=? q then wcoef (length a) q else 0.
Proof.
  induction a as [|y a IH]; intros x q; rewrite cubeSum_cons.
  - unfold cubeSum. cbn [map cart length]. rewrite !zsum_cons, !zsum_nil. rewrite Z.sub_diag. change (signPow 0) with 1.
    destruct (Z.leb_spec 0 q), (Z.leb_spec 0 (0 + q)), (Z.leb_spec 0 (0 + (q - 1))); try lia.
    + unfold wcoef. replace (Z.to_nat q) with (S (Z.to_nat (q - 1))) by lia. cbn [binom]. lia.
    + replace q with 0 by lia. reflexivity.
  - rewrite !IH. cbn [length]. destruct (Z.leb_spec 0 q), (Z.leb_spec 0 (q - 1)); try lia.
    + apply wcoef_step. lia.
    + replace q with 0 by lia. rewrite !wcoef_0. lia.
Qed.

Lemma signPow_pm : forall p, signPow p = 1 \/ signPow p = -1.
Proof. intros p. unfold signPow. destruct (Z.even p); auto. Qed.
Lemma binom_pos : forall n k, (k <= n)%nat -> 0 < binom n k.
Proof.
  assert (NN : forall n k, 0 <= binom n k). { induction n; intros [|k]; cbn [binom]; try lia. pose proof (IHn k). pose proof (IHn (S k)). lia. }
  induction n as [|n IH]; intros [|k] H; cbn [binom]; try lia. pose proof (IH k ltac:(lia)). pose proof (NN n (S k)). lia.
Qed.
Lemma wcoef_nz : forall n q, 0 <= q -> (wcoef n q <> 0 <-> q <= Z.of_nat n).
Proof.
  intros n q Hq. unfold wcoef. split.
  - intros H. destruct (Z_le_gt_dec q (Z.of_nat n)); auto. rewrite binom_big in H by lia. lia.
  - intros H. pose proof (binom_pos n (Z.to_nat q) ltac:(lia)). destruct (signPow_pm q) as [-> | ->]; lia.
Qed.

(** Levels above [lmin] that are on one of the d+2 finest diagonals. *)
Definition isoLevel (lmin : list Z) (c : Z) (l : list Z) : Prop :=
  Forall2 Z.le lmin l /\ zsum lmin + c - (Z.of_nat (length lmin) + 1) <= zsum l <= zsum lmin + c.

Lemma F2_shift : forall lmin c, 0 <= c -> Forall2 Z.le lmin (map (fun x => x + c) lmin).
Proof. induction lmin; intros c H; cbn [map]; constructor; auto. lia. Qed.
Lemma F2_shift_lt : forall lmin c, 0 < c -> Forall2 Z.lt lmin (map (fun x => x + c) lmin).
Proof. induction lmin; intros c H; cbn [map]; constructor; auto. lia. Qed.

Section Iso.
Variables (lmin : list Z) (c : Z).
Hypothesis Hne : lmin <> [].
Hypothesis HP : Forall (fun x => 1 <= x) lmin.
Hypothesis Hc : 1 <= c.
Let lmax := map (fun x => x + c) lmin.
Let d := length lmin.
Let top := zsum lmin + c.

Lemma iso_le : Forall2 Z.le lmin lmax.
Proof. apply F2_shift. lia. Qed.

Lemma iso_N : adaptiveN lmin lmax = top.
Proof.
  destruct (adaptiveN_spec lmin lmax iso_le Hne) as (N & E1 & _ & _ & [e [He E2]]). rewrite E1, <- E2. unfold lmax, top.
  rewrite (nth_indep (map (fun x => x + c) lmin) 0 (0 + c)) by (now rewrite map_length). rewrite (map_nth (fun x => x + c)). lia.
Qed.

Lemma iso_spaces : forall v, In v (adaptiveSpaces lmin lmax) <-> Forall2 Z.le lmin v /\ zsum v <= top.
Proof.
  intros v. rewrite (adaptiveSpaces_In lmin lmax v iso_le Hne HP). rewrite iso_N. replace (top - zsum lmin) with c by (unfold top; lia).
  assert (EL : map (fun x => x - c) lmax = lmin).
  { unfold lmax. rewrite map_map. rewrite <- (map_id lmin) at 2. apply map_ext. intros. lia. }
  rewrite EL. split; [intros (A & B & _); split; auto; unfold top; lia|]. intros [A B]. unfold top in B. split; auto. split; [lia|].
  rewrite excess_above; [lia| |auto]. symmetry. eapply Forall2_length; eauto.
Qed.

Lemma iso_wf : wfSpaces d (adaptiveSpaces lmin lmax).
Proof. apply (adaptiveSpaces_wf lmin lmax iso_le Hne HP). Qed.

Lemma iso_coeff : forall a, In a (adaptiveSpaces lmin lmax) -> inclExcl (adaptiveSpaces lmin lmax) a = wcoef (d - 1) (top - zsum a).
Proof.
  intros a Ha. pose proof iso_wf as [SS W]. rewrite Forall_forall in W.
  pose proof Ha as Ha'. apply iso_spaces in Ha' as [A1 A2].
  assert (La : length a = d) by (apply W; auto).
  transitivity (cubeSum a (top - zsum a)).
  - unfold inclExcl, cubeSum. rewrite <- !zsum_filter_ite.
    rewrite (zsum_map_ext _ _ (fun x => signPow (zsum x - zsum a))).
    2:{ intros x Hx. apply filter_In in Hx as [Hx _]. f_equal. assert (L : length x = length a) by (rewrite La; now apply W).
        clear - L. revert a L. induction x as [|u x IH]; destruct a as [|v a]; intros L; simpl in L; try lia; cbn [map2]; rewrite ?zsum_cons, ?zsum_nil; auto.
        rewrite IH by lia. lia. }
    apply zsum_perm, Permutation_map, NoDup_Permutation.
    + apply NoDup_filter. now apply lexsorted_NoDup.
    + apply NoDup_filter, cart_NoDup. clear. induction a; constructor; auto. apply zrange_NoDup.
    + intros b. rewrite !filter_In, cart_In, andb_true_iff, Z.leb_le. split.
      * intros [Hb [V1 V2]]. assert (L : length b = length a) by (rewrite La; now apply W). split.
        -- apply vgeb_spec in V1; auto. apply vleb_spec in V2; [|rewrite map_length; auto].
           clear - V1 V2. revert V2. induction V1; intros V2; inv V2; cbn [map]; constructor; auto. apply zrange_In. lia.
        -- apply iso_spaces in Hb. lia.
      * intros [B Sb]. assert (C : Forall2 (fun x y => x <= y <= x + 1) a b).
        { clear - B. revert b B. induction a; intros b B; cbn [map] in B; inv B; constructor; auto.
          match goal with H : In _ (zrange _ _) |- _ => apply zrange_In in H end. lia. }
        apply Forall2_length in C as L.
        assert (V : Forall2 Z.le a b) by (clear - C; induction C; constructor; auto; lia).
        split; [apply iso_spaces; split; [exact (Forall2_le_trans _ _ _ A1 V)|lia]|]. split.
        -- now apply vgeb_spec.
        -- apply vleb_spec; [rewrite map_length; auto|]. clear - C. induction C; cbn [map]; constructor; auto. lia.
  - destruct a as [|x a]; [simpl in La; unfold d in La; destruct lmin; [congruence|discriminate]|].
    rewrite cubeSum_eq. destruct (Z.leb_spec 0 (top - zsum (x :: a))); [|lia]. simpl in La. do 2 f_equal; lia.
Qed.

Let s := makeFaultTolerant lmax (adaptiveScheme lmin lmax).
Let S0 := filter (fun v => zsum lmin + c - Z.of_nat (d - 1) <=? zsum v) (adaptiveSpaces lmin lmax).
Let E0 := filter (fun v => (zsum v <=? top - Z.of_nat d) && (top - (Z.of_nat d + 1) <=? zsum v)) (adaptiveSpaces lmin lmax).

Lemma iso_ne : lmin <> lmax.
Proof.
  unfold lmax. destruct lmin as [|x r]; [congruence|]. cbn [map]. intros E. inv E. lia.
Qed.

Lemma d_pos : (0 < d)%nat.
Proof. unfold d. destruct lmin; [congruence|simpl; lia]. Qed.

Lemma iso_eff : effDim lmin lmax = d.
Proof.
  rewrite effDim_count by (unfold lmax; now rewrite map_length). destruct (no_dummies lmin lmax) as (_ & E & _).
  - apply F2_shift_lt. lia.
  - rewrite <- (eraseDummies_length (dummyMask lmin lmax) lmin); [now rewrite E|].
    rewrite mask_length; auto. unfold lmax. now rewrite map_length.
Qed.

Lemma iso_scheme : sSpaces s = S0 ++ E0 /\ sCoeffs s = map (fun v => wcoef (d - 1) (top - zsum v)) (S0 ++ E0).
Proof.
  assert (AE : sSpaces (adaptiveScheme lmin lmax) = S0 /\ sCoeffs (adaptiveScheme lmin lmax) = map (fun v => wcoef (d - 1) (top - zsum v)) S0).
  { unfold adaptiveScheme. pose proof (adaptiveCoeffs_eq d _ d_pos iso_wf) as E. cbv zeta in E. rewrite E. cbn [sSpaces sCoeffs].
    assert (F : filter (fun v => negb (inclExcl (adaptiveSpaces lmin lmax) v =? 0)) (adaptiveSpaces lmin lmax) = S0).
    { apply filter_ext_in. intros v Hv. rewrite iso_coeff by auto. apply iso_spaces in Hv as [_ Hv].
      pose proof (wcoef_nz (d - 1) (top - zsum v) ltac:(lia)) as W.
      destruct (Z.eqb_spec (wcoef (d - 1) (top - zsum v)) 0), (Z.leb_spec (zsum lmin + c - Z.of_nat (d - 1)) (zsum v)); cbn [negb]; auto.
      - exfalso. apply W; auto. unfold top. lia.
      - unfold top in *. lia. }
    rewrite F. split; auto. apply map_ext_in. intros v Hv. apply filter_In in Hv as [Hv _]. now apply iso_coeff. }
  destruct AE as [AE1 AE2].
  assert (SL : sLmin (adaptiveScheme lmin lmax) = lmin) by (unfold adaptiveScheme; now destruct (adaptiveCoeffs _)).
  assert (SN : sN (adaptiveScheme lmin lmax) = top) by (unfold adaptiveScheme; destruct (adaptiveCoeffs _); apply iso_N).
  assert (SE : sEffDim (adaptiveScheme lmin lmax) = d) by (unfold adaptiveScheme; destruct (adaptiveCoeffs _); apply iso_eff).
  assert (SV : sLevels (adaptiveScheme lmin lmax) = adaptiveLevels lmin lmax) by (unfold adaptiveScheme; now destruct (adaptiveCoeffs _)).
  unfold s, makeFaultTolerant. destruct (list_eq_dec Z.eq_dec (sLmin (adaptiveScheme lmin lmax)) lmax) as [E|_].
  { exfalso. rewrite SL in E. now apply iso_ne. }
  cbn [sSpaces sCoeffs]. rewrite AE1, AE2, SL, SN, SE, SV. rewrite diagonals_filter.
  assert (EE : filter (fun l => vgeb l lmin && ((Z.of_nat d <=? top - levelSum l) && (top - levelSum l <? Z.of_nat d + 2))) (adaptiveLevels lmin lmax) = E0).
  { unfold E0, adaptiveSpaces. rewrite iso_N. clear. induction (adaptiveLevels lmin lmax) as [|v l IH]; [reflexivity|]. cbn [filter].
    rewrite levelSum_zsum. destruct (vgeb v lmin); cbn [andb]; [|exact IH].
    destruct (Z.leb_spec (Z.of_nat d) (top - zsum v)), (Z.ltb_spec (top - zsum v) (Z.of_nat d + 2)),
      (Z.leb_spec (zsum v) top), (Z.leb_spec (zsum v) (top - Z.of_nat d)), (Z.leb_spec (top - (Z.of_nat d + 1)) (zsum v)); cbn [andb filter]; try lia; rewrite ?IH; auto;
      repeat match goal with |- context [?a <=? ?b] => destruct (Z.leb_spec a b); try lia end; cbn [andb]; auto; lia. }
  rewrite EE. split; auto. rewrite map_app. f_equal. apply map_ext_in. intros v Hv. apply filter_In in Hv as [_ Hv].
  apply andb_prop in Hv as [H1 _]. apply Z.leb_le in H1. unfold wcoef. rewrite binom_big; [ring|]. pose proof d_pos. lia.
Qed.

(** The levels of the scheme and their coefficients. *)
Lemma iso_levels : forall l, In l (sSpaces s) <-> isoLevel lmin c l.
Proof.
  intros l. destruct iso_scheme as [-> _]. rewrite in_app_iff. unfold S0, E0. rewrite !filter_In, !iso_spaces, andb_true_iff, !Z.leb_le.
  unfold isoLevel. fold d. unfold top. pose proof d_pos. split.
  - intros [[[A B] C]|[[A B] [C D]]]; split; auto; lia.
  - intros [A B]. destruct (Z_le_gt_dec (zsum lmin + c - Z.of_nat (d - 1)) (zsum l)); [left|right]; repeat split; auto; lia.
Qed.

Lemma iso_NoDup : NoDup (sSpaces s).
Proof.
  destruct iso_scheme as [-> _]. pose proof iso_wf as [SS _]. apply lexsorted_NoDup in SS. pose proof d_pos.
  assert (ND : NoDup (S0 ++ E0)); auto.
  assert (D : forall x, In x S0 -> ~ In x E0).
  { intros x Hx Hy. apply filter_In in Hx as [_ Hx], Hy as [_ Hy]. apply andb_prop in Hy as [Hy _]. apply Z.leb_le in Hx, Hy. unfold top in *. lia. }
  assert (N1 : NoDup S0) by (now apply NoDup_filter). assert (N2 : NoDup E0) by (now apply NoDup_filter).
  clear - D N1 N2. induction S0 as [|x l IH]; auto. cbn [app]. inv N1. constructor.
  - rewrite in_app_iff. intros [H|H]; auto. apply (D x); auto. now left.
  - apply IH; auto. intros y Hy. apply D. now right.
Qed.

Lemma iso_len : length (sCoeffs s) = length (sSpaces s).
Proof. destruct iso_scheme as [-> ->]. apply map_length. Qed.

Lemma iso_nth : forall j, (j < length (sSpaces s))%nat -> nth j (sCoeffs s) 0 = wcoef (d - 1) (top - zsum (nth j (sSpaces s) [])).
Proof.
  intros j Hj. destruct iso_scheme as [E1 E2]. rewrite E2, E1 in *.
  rewrite (nth_indep _ 0 ((fun v => wcoef (d - 1) (top - zsum v)) [])) by (now rewrite map_length). now rewrite (map_nth (fun v => wcoef (d - 1) (top - zsum v))).
Qed.
End Iso.

Lemma erase_id : forall lmin lmax v, Forall2 Z.lt lmin lmax -> length v = length lmin -> eraseDummies (dummyMask lmin lmax) v = v.
Proof.
  intros lmin lmax v H. revert v. unfold dummyMask. induction H as [|a b lmin lmax H F IH]; intros v L; cbn [map2].
  - destruct v; [reflexivity|discriminate].
  - destruct v as [|x v]; [discriminate|]. cbn [eraseDummies]. destruct (Z.eqb_spec (b - a) 0); [lia|]. f_equal. apply IH. simpl in L. lia.
Qed.

Lemma raise : forall t T, t <> [] -> zsum t <= T -> exists a, Forall2 Z.le t a /\ zsum a = T.
Proof.
  intros [|x t] T H HT; [congruence|]. exists (x + (T - zsum (x :: t)) :: t). split.
  - constructor; [lia|apply F2le_refl].
  - rewrite !zsum_cons in *. lia.
Qed.

Lemma iso_bound : forall lmin c l, Forall2 Z.le lmin l -> zsum l <= zsum lmin + c -> Forall2 Z.le l (map (fun x => x + c) lmin).
Proof.
  intros lmin c l H. revert c. induction H as [|x y lmin l H F IH]; intros c Hs; cbn [map]; constructor; rewrite !zsum_cons in Hs.
  - apply Forall2_le_sum in F. lia.
  - assert (Forall2 Z.le l (map (fun z => z + (c - (y - x))) lmin)) by (apply IH; lia).
    eapply Forall2_le_trans; [eassumption|]. clear - H. induction lmin; cbn [map]; constructor; auto. lia.
Qed.

Section IsoGiven.
Variables (lmin : list Z) (c : Z) (given : dict Qc).
Hypothesis Hne : lmin <> [].
Hypothesis HP : Forall (fun x => 1 <= x) lmin.
Hypothesis Hc : 1 <= c.
Let lmax := map (fun x => x + c) lmin.
Let d := length lmin.
Let top := zsum lmin + c.
Hypothesis Hwf : wfDict d given.
Hypothesis Hkeys : forall l, In l (keys given) <-> isoLevel lmin c l.
Hypothesis Htop : forall l x, In (l, x) given -> zsum l = top -> (0 < x)%Qc.

Lemma iso_active : forall t, Forall2 Z.le lmin t -> zsum t <= top -> exists a x, In (a, x) given /\ (0 < x)%Qc /\ Forall2 Z.le t a.
Proof.
  intros t H1 H2. assert (Ht : t <> []) by (intros ->; inv H1; congruence).
  destruct (raise t top Ht H2) as (a & A1 & A2).
  assert (Hk : In a (keys given)).
  { apply Hkeys. split; [exact (Forall2_le_trans _ _ _ H1 A1)|]. unfold top in A2. lia. }
  destruct (dfind_key _ _ Hk) as [x Hx]. apply dfind_In in Hx. exists a, x. split; auto. split; auto. now apply (Htop a).
Qed.

Lemma iso_valid : validScheme lmin lmax given.
Proof.
  split; [exact Hwf|]. split; [apply F2_shift; lia|]. split; [exact HP|]. split; [now apply iso_ne|]. split; apply Forall_forall.
  - intros k Hk. apply Hkeys in Hk as [K1 K2]. split; auto. apply iso_bound; auto. lia.
  - intros k Hk. apply Hkeys in Hk as [K1 K2]. apply iso_active; auto. unfold top. lia.
Qed.

Lemma iso_red : forall v, length v = d -> red lmin lmax v = v.
Proof. intros v L. unfold red, redMask. apply erase_id; auto. apply F2_shift_lt. lia. Qed.

Lemma iso_topFault : forall f, length f = d -> topFault lmin lmax f = ((zsum f =? top) || (zsum f =? top - 1)).
Proof.
  intros f L. unfold topFault. rewrite !iso_red; auto; [|unfold lmax; now rewrite map_length]. rewrite levelSum_zsum.
  assert (E : topSum lmin lmax = top); [|now rewrite E]. unfold topSum, lmax, top. rewrite levelSum_zsum.
  destruct lmin as [|x r]; [congruence|]. cbn [map nth tl]. rewrite zsum_cons. lia.
Qed.

Lemma iso_newGiven : newGiven lmin lmax given = given.
Proof.
  unfold newGiven. rewrite <- (map_id given) at 2. apply map_ext_in. intros [k x] Hk. cbn [fst snd]. rewrite iso_red; auto.
  destruct Hwf as [_ W]. rewrite Forall_forall in W. apply W. now apply (in_map fst) in Hk.
Qed.

Variable faults : list (list Z).
Hypothesis HF : Forall (fun f => In f (keys given)) faults.
Let s := theSetup lmin lmax given faults.
Let K := sLevelsOf s.

Lemma iso_K : forall l, In l K <-> Forall2 Z.le lmin l /\ zsum l <= top.
Proof.
  intros l. pose proof (K_In lmin lmax given iso_valid faults l) as H. fold s in H. fold K in H. rewrite H.
  unfold inDownset. rewrite iso_red by reflexivity. rewrite iso_newGiven. split.
  - intros [A (a & x & Ha & _ & L)]. split; auto. apply (in_map fst) in Ha. apply Hkeys in Ha as [_ Ha].
    apply Forall2_le_sum in L. unfold top. cbn [fst] in Ha. lia.
  - intros [A B]. split; auto. now apply iso_active.
Qed.

Lemma iso_one : forall integral w t, optimal integral s w -> Forall2 Z.le lmin t -> zsum t <= top ->
  (forall f, In f faults -> top - 1 <= zsum f -> ~ Forall2 Z.le f t) -> val K w t = 1%Qc.
Proof.
  intros integral w t HO H1 H2 H3. apply (optimal_one _ _ integral s w t (setup_wf lmin lmax given iso_valid faults HF) HO).
  - now apply iso_K.
  - intros f Hf. unfold s, theSetup in Hf. cbn [sValid] in Hf. apply in_map_iff in Hf as (g & E & Hg). apply filter_In in Hg as [Hg T].
    rewrite Forall_forall in HF. pose proof (HF g Hg) as Hk. apply Hkeys in Hk as [Hk1 Hk2]. apply Forall2_length in Hk1 as L.
    rewrite iso_topFault in T by auto. rewrite iso_red in E by auto. subst f. apply H3; auto.
    apply orb_prop in T. destruct T as [T|T]; apply Z.eqb_eq in T; lia.
Qed.

Lemma iso_dropped : forall integral w a, optimal integral s w -> In a K -> ~ In a (keys given) -> coef K (val K w) a = 0%Qc.
Proof.
  intros integral w a HO Ha Hk. pose proof (setup_wf lmin lmax given iso_valid faults HF) as (HN & HL & HS & Hlow & Hcl & _).
  apply (coef_interior _ _ K HN HL HS Hlow Hcl (val K w) a Ha).
  apply iso_K in Ha as [A1 A2]. intros b Hb.
  assert (V : Forall2 Z.le a b) by (clear - Hb; induction Hb; constructor; auto; lia).
  assert (SB : zsum b <= zsum a + Z.of_nat (length a)).
  { clear - Hb. induction Hb; cbn [length]; rewrite ?zsum_cons, ?zsum_nil; lia. }
  assert (LA : length a = d) by (apply Forall2_length in A1; auto).
  assert (ZA : zsum a < top - (Z.of_nat d + 1)).
  { destruct (Z_lt_ge_dec (zsum a) (top - (Z.of_nat d + 1))); auto. exfalso. apply Hk. apply Hkeys. split; auto. unfold top, d in *. lia. }
  assert (B1 : Forall2 Z.le lmin b) by exact (Forall2_le_trans _ _ _ A1 V).
  split; [apply iso_K; split; auto; lia|]. apply (iso_one integral w b HO B1); [lia|].
  intros f Hf T HLE. apply Forall2_le_sum in HLE. lia.
Qed.

Lemma iso_counted : forall integral w t, optimal integral s w -> Forall2 Z.le lmin t -> zsum t <= top ->
  qsum (map (fun k => if vgeb k t then newc lmin lmax given faults w k else 0%Qc) (keys given)) = val K w t.
Proof.
  intros integral w t HO H1 H2. assert (Lt : length t = d) by (apply Forall2_length in H1; auto).
  replace (val K w t) with (val K w (red lmin lmax t)) by (now rewrite iso_red).
  apply (counted_eq lmin lmax given iso_valid faults HF w).
  - split; auto. now apply iso_active.
  - intros a Ha Hk. rewrite iso_newGiven in Hk. now apply (iso_dropped integral).
Qed.
End IsoGiven.

(** * The two finest diagonals, in terms of the given levels *)
Definition span (lmin lmax : list Z) : Z := hd 0 (filter (fun x => negb (x =? 0)) (map2 Z.sub lmax lmin)).
Definition onTop (lmin lmax f : list Z) : Prop :=
  zsum f = zsum lmin + span lmin lmax \/ zsum f = zsum lmin + span lmin lmax - 1.

Lemma red_sum : forall lmin f, Forall2 Z.le lmin f -> forall lmax, Forall2 Z.le f lmax ->
  zsum (red lmin lmax f) - zsum (red lmin lmax lmin) = zsum f - zsum lmin.
Proof.
  unfold red, redMask. induction 1 as [|x y lmin f H F IH]; intros lmax HM; inv HM; cbn [dummyMask map2 eraseDummies].
  - reflexivity.
  - specialize (IH _ H4). unfold dummyMask in IH. rewrite (zsum_cons x lmin), (zsum_cons y f).
    destruct (Z.eqb_spec (y0 - x) 0); rewrite ?zsum_cons; lia.
Qed.

Lemma top_span : forall lmin lmax, Forall2 Z.le lmin lmax -> lmin <> lmax ->
  topSum (red lmin lmax lmin) (red lmin lmax lmax) = zsum (red lmin lmax lmin) + span lmin lmax.
Proof.
  unfold red, redMask, span. induction 1 as [|x y lmin lmax H F IH]; intros N; [congruence|].
  cbn [dummyMask map2 eraseDummies filter]. destruct (Z.eqb_spec (y - x) 0); cbn [negb hd].
  - apply IH. intros ->. apply N. f_equal. lia.
  - unfold topSum. cbn [nth tl]. rewrite levelSum_zsum, zsum_cons. lia.
Qed.

Lemma topFault_onTop : forall lmin lmax f, Forall2 Z.le lmin f -> Forall2 Z.le f lmax -> lmin <> lmax ->
  (topFault lmin lmax f = true <-> onTop lmin lmax f).
Proof.
  intros lmin lmax f H1 H2 N. unfold topFault, onTop.
  rewrite top_span; [|exact (Forall2_le_trans _ _ _ H1 H2)|auto]. pose proof (red_sum _ _ H1 _ H2) as E.
  rewrite levelSum_zsum, orb_true_iff, !Z.eqb_eq. lia.
Qed.

(** * The integer program has an optimal solution *)
Fixpoint zeroOne (n : nat) : list (list Qc) :=
  match n with O => [[]] | S n' => map (cons 0%Qc) (zeroOne n') ++ map (cons 1%Qc) (zeroOne n') end.
Lemma zeroOne_In : forall n w, In w (zeroOne n) <-> length w = n /\ Forall (admissible true) w.
Proof.
  assert (A0 : admissible true 0%Qc) by (split; [discriminate|split; [discriminate|auto]]).
  assert (A1 : admissible true 1%Qc) by (split; [discriminate|split; [discriminate|auto]]).
  induction n as [|n IH]; intros w; cbn [zeroOne].
  - split; [intros [<-|[]]; auto|]. intros [L _]. destruct w; [now left|discriminate].
  - rewrite in_app_iff, !in_map_iff. split.
    + intros [(v & <- & Hv)|(v & <- & Hv)]; apply IH in Hv as [L F]; simpl; auto.
    + intros [L F]. destruct w as [|x w]; [discriminate|]. inv F. destruct H1 as (_ & _ & H1).
      assert (Hw : In w (zeroOne n)) by (apply IH; simpl in L; auto).
      destruct (H1 eq_refl) as [-> | ->]; [left|right]; exists w; auto.
Qed.

Lemma exists_max : forall {A} (f : A -> Qc) l, l <> [] -> exists x, In x l /\ forall y, In y l -> (f y <= f x)%Qc.
Proof.
  intros A f. induction l as [|a l IH]; intros H; [congruence|]. destruct l as [|b l].
  - exists a. split; [now left|]. intros y [<-|[]]. apply Qcle_refl.
  - destruct IH as (x & Hx & M); [discriminate|]. destruct (Qclt_le_dec (f a) (f x)) as [L|L].
    + exists x. split; [now right|]. intros y [<-|Hy]; [now apply Qclt_le_weak|auto].
    + exists a. split; [now left|]. intros y [<-|Hy]; [apply Qcle_refl|]. eapply Qcle_trans; eauto.
Qed.

Lemma dot_zero : forall r n, dot r (repeat 0%Qc n) = 0%Qc.
Proof. induction r as [|a r IH]; intros [|n]; cbn [repeat dot]; auto. rewrite IH. ring. Qed.

Lemma solvable : forall n lmin s, wfSetup n lmin s -> exists w, optimal true s w.
Proof.
  intros n lmin s W. pose proof (constraints_eq _ _ _ W) as C. set (rows := map _ _) in C.
  set (P := fun w => Forall (fun r => dot r w = 0%Qc) rows).
  assert (D : forall w, {P w} + {~ P w}) by (intros w; apply Forall_dec; intros r; apply Qc_eq_dec).
  set (L := filter (fun w => if D w then true else false) (zeroOne (length (sLevelsOf s)))).
  assert (IFF : forall w, In w L <-> feasible true s w).
  { intros w. unfold L, feasible. rewrite filter_In, zeroOne_In. destruct (D w) as [H|H].
    - split; [intros [[A B] _]; split; auto; split; auto; exists rows; auto|]. intros (A & B & _). auto.
    - split; [intros [_ E]; discriminate|]. intros (_ & _ & rows' & E & F). rewrite C in E. inv E. contradiction. }
  destruct (exists_max (qdot (objective s)) L) as (w & Hw & M).
  - assert (I : In (repeat 0%Qc (length (sLevelsOf s))) L).
    { apply IFF. split; [apply repeat_length|]. split.
      - apply Forall_forall. intros x Hx. apply repeat_spec in Hx. subst x. split; [discriminate|split; [discriminate|auto]].
      - exists rows. split; auto. apply Forall_forall. intros r _. apply dot_zero. }
    intros E. rewrite E in I. contradiction.
  - exists w. split; [now apply IFF|]. intros w' Hw'. apply M. now apply IFF.
Qed.

(** * recomputeOptimumCoefficients *)
Section Recompute.
Variables (lmin lmax : list Z) (levels : list (list Z)) (coeffs : list Qc).
Let n := length levels.
Definition startParams : params := setLevelsCoeffs noParams (zseq 0 n) levels coeffs.
Hypothesis HD : Forall (fun l => length l = length lmin) levels.
Hypothesis HL : length coeffs = n.
Hypothesis HN : NoDup levels.
Let p := startParams.
Let lev (i : Z) : list Z := nth (Z.to_nat i) levels [].

Lemma start_spec : wfParams (length lmin) p /\ (forall i, 0 <= i < Z.of_nat n ->
    zfind i (pLevels p) = Some (lev i) /\ zfind i (pCoeffs p) = Some (nth (Z.to_nat i) coeffs 0%Qc) /\
    dfind (lev i) (pIds p) = Some i /\ dfind (lev i) (pDict p) = Some (nth (Z.to_nat i) coeffs 0%Qc)) /\
  (forall l, ~ In l levels -> dfind l (pIds p) = None /\ dfind l (pDict p) = None).
Proof.
  destruct (setLevelsCoeffs_spec (length lmin) levels (zseq 0 n) coeffs noParams (noParams_wf _) HD) as (W & A & _ & B); auto.
  - apply zseq_length.
  - apply zseq_NoDup.
  - split; auto. split; auto. intros i Hi. specialize (A (Z.to_nat i) ltac:(unfold n in *; lia)).
    rewrite zseq_nth in A by (unfold n in *; lia). replace (0 + Z.of_nat (Z.to_nat i)) with i in A by lia. exact A.
Qed.

Lemma start_ids : length (pLevels p) = n.
Proof.
  rewrite <- (map_length fst). unfold p, startParams.
  rewrite setLevelsCoeffs_ids; cbn [noParams pLevels map app]; rewrite ?zseq_length; auto. apply zseq_NoDup.
Qed.

Lemma start_keys : forall l, In l (keys (pDict p)) <-> In l levels.
Proof.
  intros l. destruct start_spec as (_ & A & B). split.
  - intros H. destruct (in_dec (list_eq_dec Z.eq_dec) l levels) as [|N]; auto. apply dfind_key in H as [v Hv].
    destruct (B l N). congruence.
  - intros H. apply (In_nth _ _ []) in H as (j & Hj & E). destruct (A (Z.of_nat j) ltac:(unfold n; lia)) as (_ & _ & _ & F).
    unfold lev in F. rewrite Nat2Z.id, E in F. apply dfind_In in F. now apply (in_map fst) in F.
Qed.

Lemma getLevel_lev : forall i, 0 <= i < Z.of_nat n -> getLevel p i = lev i.
Proof. intros i Hi. destruct start_spec as (_ & A & _). unfold getLevel. now destruct (A i Hi) as (-> & _). Qed.

Lemma levels_again : map (getLevel p) (zseq 0 n) = levels.
Proof.
  apply (nth_ext _ _ [] []); [now rewrite map_length, zseq_length|]. intros j Hj. rewrite map_length, zseq_length in Hj.
  rewrite (nth_indep _ [] (getLevel p 0)) by (now rewrite map_length, zseq_length).
  rewrite (map_nth (getLevel p)), zseq_nth by auto. rewrite getLevel_lev by lia. unfold lev. f_equal. lia.
Qed.

Lemma lev_In : forall i, 0 <= i < Z.of_nat n -> In (lev i) levels.
Proof. intros i Hi. apply nth_In. unfold n in Hi. lia. Qed.

Hypothesis VS : validScheme lmin lmax (pDict p).
Variable faults : list Z.
Hypothesis HF : Forall (fun i => 0 <= i < Z.of_nat n) faults.

Lemma faultLevels_eq : faultLevels p faults = map lev faults.
Proof. apply map_ext_in. intros i Hi. rewrite Forall_forall in HF. now apply getLevel_lev, HF. Qed.

Lemma faults_keys : Forall (fun f => In f (keys (pDict p))) (map lev faults).
Proof.
  apply Forall_forall. intros f Hf. apply in_map_iff in Hf as (i & <- & Hi). rewrite Forall_forall in HF. now apply start_keys, lev_In, HF.
Qed.

Let s := theSetup lmin lmax (pDict p) (map lev faults).
Lemma program_eq : programOf p lmin lmax faults = Some s.
Proof. unfold programOf. rewrite faultLevels_eq. apply construct_eq; auto using faults_keys. Qed.

Variable w : list Qc.
Hypothesis Hw : length w = length (sLevelsOf s).
Let nc (l : list Z) : Qc := newc lmin lmax (pDict p) (map lev faults) w l.

Definition again (i : Z) : bool := negb (topFault lmin lmax (lev i)) && (if Qc_eq_dec (nc (lev i)) 0%Qc then false else true).
Definition afterParams : params := setLevelsCoeffs p (zseq 0 n) levels (map nc levels).

Lemma after_spec : forall i, 0 <= i < Z.of_nat n ->
  getLevel afterParams i = lev i /\ getCoeff afterParams i = nc (lev i) /\
  dfind (lev i) (pIds afterParams) = Some i /\ dfind (lev i) (pDict afterParams) = Some (nc (lev i)).
Proof.
  intros i Hi. destruct start_spec as (W & _).
  destruct (setLevelsCoeffs_spec (length lmin) levels (zseq 0 n) (map nc levels) p W HD) as (_ & A & _).
  - apply zseq_length.
  - apply map_length.
  - apply zseq_NoDup.
  - exact HN.
  - specialize (A (Z.to_nat i) ltac:(unfold n in *; lia)). rewrite zseq_nth in A by (unfold n in *; lia).
    replace (0 + Z.of_nat (Z.to_nat i)) with i in A by lia. fold (lev i) in A. fold afterParams in A.
    rewrite (nth_indep _ _ (nc [])) in A by (rewrite map_length; unfold n in *; lia). rewrite (map_nth nc) in A. fold (lev i) in A.
    unfold getLevel, getCoeff. destruct A as (-> & -> & -> & ->). auto.
Qed.

Lemma recompute_eq : (exists i, In i faults /\ topFault lmin lmax (lev i) = true) ->
  recomputeOptimum p lmin lmax faults w
  = Some (Recomputed afterParams (sortZ faults) (setDiff (sortZ faults) (sortZ (filter again faults))) (sortZ (filter again faults))).
Proof.
  intros (i0 & Hi0 & T0). unfold recomputeOptimum. rewrite program_eq.
  assert (NF : (numFaults s =? 0)%nat = false).
  { apply Nat.eqb_neq. unfold numFaults, s, theSetup. cbn [sValid]. rewrite map_length. intros E. apply length_zero_iff_nil in E.
    assert (I : In (lev i0) (filter (topFault lmin lmax) (map lev faults))) by (apply filter_In; split; auto; now apply in_map).
    rewrite E in I. contradiction. }
  rewrite NF. pose proof (results_eq lmin lmax (pDict p) VS (map lev faults) faults_keys w Hw) as R. fold s in R. rewrite R.
  rewrite start_ids. cbv zeta. rewrite levels_again.
  assert (NE : map (newCoeff (map (fun k => (k, newc lmin lmax (pDict p) (map lev faults) w k)) (keys (pDict p)))) levels = map nc levels).
  { apply map_ext_in. intros l Hl. unfold newCoeff.
    rewrite (In_dfind l (nc l)); auto.
    - unfold keys at 1. rewrite map_map, map_id. apply (wf_NoDup (length lmin)). apply VS.
    - apply (in_map (fun k => (k, nc k))). now apply start_keys. }
  rewrite NE. fold afterParams.
  assert (RI : map (fun l => match dfind l (pIds afterParams) with Some i => i | None => 0 end)
     (filter (fun f => if Qc_eq_dec (newc lmin lmax (pDict p) (map lev faults) w f) 0%Qc then false else true)
        (filter (fun f => negb (topFault lmin lmax f)) (map lev faults))) = filter again faults).
  { rewrite (filter_map' _ _ lev _ (fun i => negb (topFault lmin lmax (lev i)))) by auto.
    rewrite (filter_map' _ _ lev _ (fun i => if Qc_eq_dec (nc (lev i)) 0%Qc then false else true)) by auto.
    rewrite map_map. transitivity (map (fun i : Z => i) (filter again faults)); [|apply map_id].
    assert (FF : forall l, filter (fun i => if Qc_eq_dec (nc (lev i)) 0%Qc then false else true) (filter (fun i => negb (topFault lmin lmax (lev i))) l)
                 = filter again l).
    { induction l as [|i l IH]; [reflexivity|]. cbn [filter]. unfold again at 1.
      destruct (negb (topFault lmin lmax (lev i))); cbn [andb filter]; [|exact IH].
      destruct (Qc_eq_dec (nc (lev i)) 0%Qc); [exact IH|]. now rewrite IH. }
    rewrite FF. apply map_ext_in. intros i Hi. apply filter_In in Hi as [Hi _]. rewrite Forall_forall in HF.
    destruct (after_spec i (HF i Hi)) as (_ & _ & -> & _). reflexivity. }
  rewrite RI. reflexivity.
Qed.
End Recompute.
