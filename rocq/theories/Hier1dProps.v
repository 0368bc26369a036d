(** C18, C20: one-dimensional (de)hierarchization. *)
From Verif Require Import Base DofModel DofProofs Level1dModel Level1dProofs DecompModel DecompProofs
  Hier1dModel Hier1dProofs HierMassProofs.
From Coq Require Import QArith Qcanon.
Open Scope Z_scope.

(** ** C18 *)

(** The kernels themselves, on a buffer of [2^lmax + 1] values (and beyond: nothing else is touched). The periodic full
    weighting and biorthogonal kernels need equal end points. *)
Theorem C18_kernels_inverse : forall f lmax lmin a, 0 <= lmin <= lmax -> lmax <= 28 ->
  (f = FullWeightingPeriodic \/ f = BiorthogonalPeriodic -> a 0 = a (2 ^ lmax)) ->
  forall j, dehierKernel f lmax lmin (hierKernel f lmax lmin a) j = a j /\
            hierKernel f lmax lmin (dehierKernel f lmax lmin a) j = a j.
Proof.
  intros f L lmin a H HL HP j.
  destruct (kernel_roundtrip f L lmin a H HL) as [A B]; auto.
  intros E. apply HP. destruct f; simpl in E; auto; discriminate.
Qed.

(** The biorthogonal kernels, including the non-periodic instance that no basis is dispatched to. *)
Theorem C18_biorthogonal_inverse : forall periodic lmax lmin a, 0 <= lmin <= lmax -> lmax <= 28 ->
  (periodic = true -> a 0 = a (2 ^ lmax)) ->
  forall j, bioDehier periodic lmax lmin (bioHier periodic lmax lmin a) j = a j /\
            bioHier periodic lmax lmin (bioDehier periodic lmax lmin a) j = a j.
Proof. intros p L lmin a H HL HP j. split; [apply bio_roundtrip|apply bio_roundtrip']; auto. Qed.

(** Which bases are meant for which boundary type: one-sided grids need one of the periodic bases or the hat basis; a
    periodic full weighting or biorthogonal basis on a grid with both boundary points needs periodic data. *)
Definition suitable (f : basis) (b n : Z) (values : arr) : Prop :=
  (b = 0 -> f = Hat) /\
  (b = 1 -> f = Hat \/ f = HatPeriodic \/ f = FullWeightingPeriodic \/ f = BiorthogonalPeriodic) /\
  (b = 2 -> f = FullWeightingPeriodic \/ f = BiorthogonalPeriodic -> values 0 = values (n - 1)).

Lemma pole_roundtrip : forall f b L lmin n stale stale' values h,
  0 <= b <= 2 -> 1 <= L <= 28 -> 0 <= lmin -> n = 2 ^ L + b - 1 -> suitable f b n values ->
  (forall d, hierPole f b L lmin n 0 n stale [] values = Some h ->
             dehierPole f b L lmin n 0 n stale' [] h = Some d -> forall j, 0 <= j < n -> d j = values j) /\
  (forall d, dehierPole f b L lmin n 0 n stale [] values = Some h ->
             hierPole f b L lmin n 0 n stale' [] h = Some d -> forall j, 0 <= j < n -> d j = values j).
Proof.
  intros f b L lmin n stale stale' values h Hb HL Hm Hn (S0 & S1 & S2).
  pose proof (pow2_pos L ltac:(lia)) as PL.
  unfold hierPole, dehierPole. destruct (Z.geb_spec lmin L).
  { split; intros d E1 E2; inv E1; now inv E2. }
  destruct (Z.gtb_spec b 0).
  - set (t := loadPole b n 0 n stale [] values).
    pose proof (loadPole_serial b L n stale values ltac:(lia) ltac:(lia) Hn) as LS. fold t in LS.
    assert (PT : perOk (perKernel f) (2 ^ L) t).
    { intros E. rewrite (LS 0), (LS (2 ^ L)) by (unfold onRange; lia).
      destruct (Z.eqb_spec b 1); cbn [andb].
      - rewrite Z.eqb_refl. destruct (Z.eqb_spec 0 (2 ^ L)); auto.
      - assert (B2 : b = 2) by lia. specialize (S2 B2). replace (2 ^ L) with (n - 1) by lia.
        apply S2. destruct f; simpl in E; auto; discriminate. }
    assert (TE : b = 1 -> t 0 = t (2 ^ L)).
    { intros B. rewrite (LS 0), (LS (2 ^ L)) by (unfold onRange; lia). rewrite B, Z.eqb_refl. cbn [andb].
      rewrite Z.eqb_refl. destruct (Z.eqb_spec 0 (2 ^ L)); auto. }
    assert (TV : forall j, 0 <= j < n -> t j = values j) by (intros; apply loadPole_local; lia).
    destruct (kernel_roundtrip f L lmin t ltac:(lia) ltac:(lia) PT) as [RT1 RT2].
    assert (KE : b = 1 -> hierKernel f L lmin t 0 = hierKernel f L lmin t (2 ^ L) /\
                          dehierKernel f L lmin t 0 = dehierKernel f L lmin t (2 ^ L)).
    { intros B. apply kernel_ends; auto; try lia. destruct (S1 B) as [-> | [-> | [-> | ->]]]; auto. }
    assert (RL : forall g, (b = 1 -> g 0 = g (2 ^ L)) -> agree (onRange (2 ^ L)) (loadPole b n 0 n stale' [] g) g).
    { intros g Hg j Hj. rewrite (loadPole_serial b L n stale' g ltac:(lia) ltac:(lia) Hn j Hj).
      destruct (Z.eqb_spec b 1); cbn [andb]; auto. destruct (Z.eqb_spec j (2 ^ L)) as [->|]; auto. }
    split; intros d E1 E2 j Hj; inv E1; inv E2; rewrite <- (TV j Hj).
    + rewrite <- (RT1 j). apply (kernel_agree f L lmin); try lia; [|unfold onRange; lia].
      apply RL. intros B. apply KE; auto.
    + rewrite <- (RT2 j). apply (kernel_agree f L lmin); try lia; [|unfold onRange; lia].
      apply RL. intros B. apply KE; auto.
  - assert (b = 0) by lia. subst b. rewrite (S0 eq_refl). replace (2 ^ L + 0 - 1) with (2 ^ L - 1) in Hn by lia.
    set (t := loadPole 0 n 0 n stale [] values).
    assert (TV : forall j, 0 <= j < n -> t j = values j) by (intros; apply loadPole_local; lia).
    assert (RL : forall g, agree (fun j => 0 <= j < 2 ^ L - 1) (loadPole 0 n 0 n stale' [] g) g).
    { intros g j Hj. apply loadPole_local; lia. }
    subst n. split; intros d E1 E2 j Hj; inv E1; inv E2; rewrite <- (TV j Hj).
    + rewrite <- (nb_roundtrip L t ltac:(lia) j). apply (nbKernel_agree L); auto; try lia.
    + rewrite <- (nb_roundtrip' L t ltac:(lia) j). apply (nbKernel_agree L); auto; try lia.
Qed.

(** A pole held by one process: hierarchizing and dehierarchizing (in either order) restores all values, whatever the work
    buffer contained before. Both operations succeed for every suitable basis. *)
Theorem C18_pole_roundtrip : forall f b L lmin n stale stale' values,
  0 <= b <= 2 -> 1 <= L <= 28 -> 0 <= lmin -> numDofNodal1 L b = Some n -> suitable f b n values ->
  (exists h d, hierPole f b L lmin n 0 n stale [] values = Some h /\ dehierPole f b L lmin n 0 n stale' [] h = Some d /\
     forall j, 0 <= j < n -> d j = values j) /\
  (exists h d, dehierPole f b L lmin n 0 n stale [] values = Some h /\ hierPole f b L lmin n 0 n stale' [] h = Some d /\
     forall j, 0 <= j < n -> d j = values j).
Proof.
  intros f b L lmin n stale stale' values Hb HL Hm Hn HS.
  apply numDofNodal1_formula in Hn; try lia.
  assert (EH : forall t g, exists h, hierPole f b L lmin n 0 n t [] g = Some h).
  { intros t g. unfold hierPole. destruct (lmin >=? L); eauto. destruct (Z.gtb_spec b 0); eauto.
    destruct HS as [H0 _]. rewrite (H0 ltac:(lia)). eauto. }
  assert (ED : forall t g, exists h, dehierPole f b L lmin n 0 n t [] g = Some h).
  { intros t g. unfold dehierPole. destruct (lmin >=? L); eauto. destruct (Z.gtb_spec b 0); eauto.
    destruct HS as [H0 _]. rewrite (H0 ltac:(lia)). eauto. }
  split.
  - destruct (EH stale values) as [h Eh]. destruct (ED stale' h) as [d Ed]. exists h, d. split; auto. split; auto.
    destruct (pole_roundtrip f b L lmin n stale stale' values h Hb HL Hm Hn HS) as [A _]. eapply A; eauto.
  - destruct (ED stale values) as [h Eh]. destruct (EH stale' h) as [d Ed]. exists h, d. split; auto. split; auto.
    destruct (pole_roundtrip f b L lmin n stale stale' values h Hb HL Hm Hn HS) as [_ A]. eapply A; eauto.
Qed.

Definition qz (z : Z) : Qc := Q2Qc (inject_Z z).

(** The restriction is needed: the non-periodic full weighting basis (and the non-periodic biorthogonal basis, which is
    dispatched to the same kernel) loses information on a one-sided grid. *)
Theorem C18_nonperiodic_one_sided_refuted : forall f, f = FullWeighting \/ f = Biorthogonal ->
  exists values h d, hierPole f 1 2 0 4 0 4 (fun _ => qz 0) [] values = Some h /\
    dehierPole f 1 2 0 4 0 4 (fun _ => qz 0) [] h = Some d /\ exists j, 0 <= j < 4 /\ d j <> values j.
Proof.
  intros f Hf. exists (fun j => if j =? 0 then qz 0 else if j =? 1 then qz 8 else qz 0).
  do 2 eexists.
  destruct Hf as [-> | ->]; (split; [reflexivity|]; split; [reflexivity|]; exists 3; split; [lia|]; vm_compute; discriminate).
Qed.

Example C18_ex : let v := fun j => qz (j * j * j + 1) in
  suitable Hat 0 7 v /\ suitable HatPeriodic 1 8 v /\ suitable FullWeightingPeriodic 1 8 v /\ suitable Biorthogonal 2 9 v /\
  map (fun j => match hierPole FullWeightingPeriodic 1 3 1 8 0 8 (fun _ => qz 0) [] v with Some h => h j | None => qz 0 end)
      (zrange 0 8) <> map v (zrange 0 8) /\
  map (fun j => match hierPole Hat 0 3 0 7 0 7 (fun _ => qz 77) [] v with
                | Some h => match dehierPole Hat 0 3 0 7 0 7 (fun _ => qz 55) [] h with Some d => d j | None => qz 0 end
                | None => qz 0 end) (zrange 0 7) = map v (zrange 0 7).
Proof.
  cbv zeta. split; [|split; [|split; [|split; [|split]]]].
  - split; [|split]; auto; discriminate.
  - split; [|split]; auto; discriminate.
  - split; [|split]; auto; discriminate.
  - split; [|split]; try discriminate. intros _ [X|X]; discriminate X.
  - vm_compute. discriminate.
  - vm_compute. reflexivity.
Qed.

(** ** C20 *)

(** Integral over [0,1] of the piecewise linear function with the values [a 0 .. a (2^L)] at the grid points. *)
Definition integral (L : Z) (a : arr) : Qc :=
  (qsum (map (fun k => qhalf * (a k + a (k + 1)%Z)) (zrange 0 (2 ^ L))) * / qz (2 ^ L))%Qc.

Lemma integral_trap : forall L a, integral L a = (qhalf * trap 1 (Z.to_nat (2 ^ L)) a * / qz (2 ^ L))%Qc.
Proof.
  intros. unfold integral, trap, zrange. rewrite Z.sub_0_r. rewrite qsum_map_scale. do 2 f_equal.
  apply qsum_map_ext. intros k _. rewrite !Z.mul_1_r. auto.
Qed.

Lemma mass_kept : forall (Hk Dk : arr -> arr) p L lmin a h', 0 <= lmin <= L ->
  perOk p (2 ^ L) a ->
  (forall b, perOk p (2 ^ L) b ->
     (qpow2 (Z.to_nat (L - lmin)) * trap (2 ^ (L - lmin)) (Z.to_nat (2 ^ lmin)) (Hk b) = trap 1 (Z.to_nat (2 ^ L)) b)%Qc) ->
  (perOk p (2 ^ L) h' -> eqA (Hk (Dk h')) h') -> perOk p (2 ^ L) (Hk a) ->
  (perOk p (2 ^ L) h' -> perOk p (2 ^ L) (Dk h')) ->
  (forall j, 0 <= j <= 2 ^ L -> (2 ^ (L - lmin) | j) -> h' j = Hk a j) ->
  integral L (Dk h') = integral L a.
Proof.
  intros Hk Dk p L lmin a h' Hl P HM RT PH PD HE.
  pose proof (pow2_pos (L - lmin) ltac:(lia)) as W. pose proof (pow2_pos lmin ltac:(lia)) as W2.
  assert (E2 : 2 ^ L = 2 ^ lmin * 2 ^ (L - lmin)) by (rewrite <- Z.pow_add_r by lia; f_equal; lia).
  assert (PH' : perOk p (2 ^ L) h').
  { intros E. rewrite (HE 0), (HE (2 ^ L)).
    - apply PH; auto.
    - nia.
    - exists (2 ^ lmin). auto.
    - nia.
    - exists 0. ring. }
  rewrite !integral_trap. f_equal. f_equal. rewrite <- (HM a P), <- (HM (Dk h') (PD PH')). f_equal.
  apply trap_ext. intros k Hk'. rewrite (RT PH'). apply HE; [nia|]. exists k. ring.
Qed.

(** Changing hierarchical coefficients above level [lmin] in any way (in particular dropping them) keeps the integral. *)
Theorem C20_full_weighting_mass : forall periodic L lmin a h', 0 <= lmin <= L -> L <= 28 ->
  (periodic = true -> a 0 = a (2 ^ L)) ->
  (forall j, 0 <= j <= 2 ^ L -> (2 ^ (L - lmin) | j) -> h' j = fwHier periodic L lmin a j) ->
  integral L (fwDehier periodic L lmin h') = integral L a.
Proof.
  intros p L lmin a h' Hl HL HP HE.
  assert (STEP : forall d b, 0 <= d < L - lmin -> perOk p (2 ^ L) b ->
     perOk p (2 ^ L) (fwHierStep p (powerOfTwo L) d b) /\ perOk p (2 ^ L) (fwDehierStep p (powerOfTwo L) d b)).
  { intros d b Hd Pb. destruct (pow2_level L d ltac:(lia)) as (W & M & EE).
    destruct (fw_step p L d ltac:(lia) HL) as (F1 & F2 & _). split.
    - eapply perOk_eqA; [apply eqA_sym, F1|]. eapply fwH_per; eauto.
    - eapply perOk_eqA; [apply eqA_sym, F2|]. apply fwD_per. }
  apply (mass_kept (fwHier p L lmin) (fwDehier p L lmin) p L lmin a h'); auto.
  - intros b Pb. apply fwHier_mass; auto.
  - intros Ph. apply fw_roundtrip'; auto.
  - apply upLevels_per; auto. intros d b Hd Pb. now apply STEP.
  - intros Ph. apply downLevels_per; auto. intros d b Hd Pb. now apply STEP.
Qed.

Theorem C20_biorthogonal_mass : forall periodic L lmin a h', 0 <= lmin <= L -> L <= 28 ->
  (periodic = true -> a 0 = a (2 ^ L)) ->
  (forall j, 0 <= j <= 2 ^ L -> (2 ^ (L - lmin) | j) -> h' j = bioHier periodic L lmin a j) ->
  integral L (bioDehier periodic L lmin h') = integral L a.
Proof.
  intros p L lmin a h' Hl HL HP HE.
  assert (STEP : forall d b, 0 <= d < L - lmin -> perOk p (2 ^ L) b ->
     perOk p (2 ^ L) (bioHierStep p (powerOfTwo L) d b) /\ perOk p (2 ^ L) (bioDehierStep p (powerOfTwo L) d b)).
  { intros d b Hd Pb. destruct (pow2_level L d ltac:(lia)) as (W & M & EE).
    destruct (fw_step p L d ltac:(lia) HL) as (_ & _ & F1 & F2). split.
    - eapply perOk_eqA; [apply eqA_sym, F1|]. eapply bioH_per; eauto.
    - eapply perOk_eqA; [apply eqA_sym, F2|]. eapply bioD_per; eauto. }
  apply (mass_kept (bioHier p L lmin) (bioDehier p L lmin) p L lmin a h'); auto.
  - intros b Pb. apply bioHier_mass; auto.
  - intros Ph. apply bio_roundtrip'; auto.
  - apply upLevels_per; auto. intros d b Hd Pb. now apply STEP.
  - intros Ph. apply downLevels_per; auto. intros d b Hd Pb. now apply STEP.
Qed.

(** The case of the property: all coefficients finer than level [m] dropped. *)
Theorem C20_truncation_keeps_mass : forall f L lmin m a, 0 <= lmin <= m -> m <= L -> L <= 28 ->
  f <> Hat -> f <> HatPeriodic -> (f = FullWeightingPeriodic \/ f = BiorthogonalPeriodic -> a 0 = a (2 ^ L)) ->
  let truncated := fun j => if lev L j >? m then 0%Qc else hierKernel f L lmin a j in
  integral L (dehierKernel f L lmin truncated) = integral L a.
Proof.
  intros f L lmin m a H1 H2 H3 N1 N2 HP truncated.
  assert (T : forall j, 0 <= j <= 2 ^ L -> (2 ^ (L - lmin) | j) -> truncated j = hierKernel f L lmin a j).
  { intros j Hj D. unfold truncated. assert (lev L j <= lmin) by (apply lev_divides; auto; lia).
    destruct (Z.gtb_spec (lev L j) m); [lia|auto]. }
  destruct f; try congruence; simpl in *.
  - apply C20_full_weighting_mass; auto; try lia; discriminate.
  - apply C20_full_weighting_mass; auto; lia.
  - apply C20_full_weighting_mass; auto; try lia; discriminate.
  - apply C20_biorthogonal_mass; auto; lia.
Qed.

(** A case where something is really dropped, the values do change and the integral does not; with the hat basis the
    integral changes. *)
Example C20_ex :
  let a := fun j => qz (match j with 1 => 4 | 3 => 8 | 4 => 16 | _ => 0 end) in
  let t := fun f j => if lev 2 j >? 1 then 0%Qc else hierKernel f 2 0 a j in
  integral 2 (dehierKernel BiorthogonalPeriodic 2 0 (fun j => if lev 2 j >? 1 then 0%Qc else bioHier true 2 0 (fun j => if j =? 4 then 0%Qc else a j) j))
    = integral 2 (fun j => if j =? 4 then 0%Qc else a j) /\
  dehierKernel FullWeighting 2 0 (t FullWeighting) 1 <> a 1 /\
  integral 2 (dehierKernel FullWeighting 2 0 (t FullWeighting)) = integral 2 a /\
  integral 2 a = qz 5 /\
  integral 2 (dehierKernel Hat 2 0 (t Hat)) <> integral 2 a.
Proof.
  cbv zeta. split; [|split; [|split; [|split]]]; try (apply Qc_is_canon; vm_compute; reflexivity); vm_compute; discriminate.
Qed.

Print Assumptions C18_kernels_inverse.
Print Assumptions C18_biorthogonal_inverse.
Print Assumptions C18_pole_roundtrip.
Print Assumptions C18_nonperiodic_one_sided_refuted.
Print Assumptions C20_full_weighting_mass.
Print Assumptions C20_biorthogonal_mass.
Print Assumptions C20_truncation_keeps_mass.
