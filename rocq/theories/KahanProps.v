(** C86, C87: compensated summation with rounding. *)
From Verif Require Import Base TensorModel SubspaceModel Level1dModel LevelSetsModel CombiSchemeModel Hier1dModel HierMassProofs QcTools KahanModel KahanProofs
  SparseGridModel SparseTransferProofs CombineModel SparseGridProps.
From Coq Require Import QArith Qcanon.
Open Scope Z_scope.
Ltac Zify.zify_post_hook ::= idtac.

(** C86: with operations that are accurate up to a relative error u, the compensated sum differs from the exact one by at most
    (5 u + 12 n u^2) times the sum of the absolute values; the first-order error does not grow with the number of summands. *)
Theorem C86_sum_error : forall u rnd xs, (0 <= u)%Qc -> (u * zq 64 <= 1)%Qc -> (forall z, (qabs (rnd z - z) <= u * qabs z)%Qc) ->
  let n := zq (Z.of_nat (length xs)) in (n * u <= 1)%Qc ->
  (qabs (fst (kahanSum rnd xs (0, 0)%Qc) - qsum xs) <= (zq 5 * u + zq 12 * n * u * u) * qsum (map qabs xs))%Qc.
Proof.
  intros u rnd xs Hu H64 HA n Hn. destruct (kahan_invariant u rnd Hu H64 HA xs Hn) as [A B]. fold n in B.
  set (st := kahanSum rnd xs (0, 0)%Qc) in *. set (X := qsum (map qabs xs)) in *.
  pose proof (qabs_add (fst st - snd st - qsum xs)%Qc (snd st)) as T.
  replace (fst st - snd st - qsum xs + snd st)%Qc with (fst st - qsum xs)%Qc in T by ring.
  replace ((zq 5 * u + zq 12 * n * u * u) * X)%Qc with (zq 3 * (u * X) + (zq 2 * (u * X) + zq 12 * (n * (u * (u * X)))))%Qc.
  - clear - A B T. qlra.
  - change 5 with (3 + 2). rewrite zq_add. ring.
Qed.

(** ** Adding grids to the sparse grid *)

(** A full grid to be added: the levels of each thread, the grid, coefficient and values. *)
Record addition := { dThreads : list (list (list Z)); dGrid : Grid; dCoeff : Qc; dValues : arr }.
Definition addAllR (rnd : Qc -> Qc) (fully : bool) (levels : list (list Z)) (adds : list addition) (d : DSG) : option DSG :=
  fold_left (fun d a => match d with Some d => addDFGR rnd fully levels (dThreads a) (dGrid a) (dCoeff a) (dValues a) d | None => None end) adds (Some d).
(** The same additions with absolute values, and with all values 1 (counting the summands of every element). *)
Definition absolute (a : addition) : addition :=
  {| dThreads := dThreads a; dGrid := dGrid a; dCoeff := qabs (dCoeff a); dValues := fun k => qabs (dValues a k) |}.
Definition ones (a : addition) : addition := {| dThreads := dThreads a; dGrid := dGrid a; dCoeff := 1%Qc; dValues := fun _ => 1%Qc |}.

(** Data and compensation are zero, and each element has its own compensation. *)
Definition fresh (d : DSG) : Prop :=
  (forall k, 0 <= k < dLen d -> dData d k = 0%Qc /\ dKahan d k = 0%Qc) /\
  (forall i, ptrOf (dKPtr d) i = ptrOf (dPtr d) i).

(** The summands of every element. *)
Fixpoint gather (c : Qc) (v : arr) (ps : list Z) (sp : Z) (f : Z -> list Qc) : Z -> list Qc :=
  match ps with [] => f | p :: ps => gather c v ps (sp + 1) (fun k => if k =? sp then f k ++ [(c * v p)%Qc] else f k) end.
Definition gatherBody (fully : bool) (d0 : DSG) (g : Grid) (c : Qc) (v : arr) (i : Z) (l : list Z) (f : Z -> list Qc) : Z -> list Qc :=
  if shouldBeCopied fully d0 i then gather c v (fgPointsOfSubspace g l) (ptrOf (dPtr d0) i) f else f.
Definition gatherAll (fully : bool) (levels : list (list Z)) (adds : list addition) (d0 : DSG) (f : Z -> list Qc) : option (Z -> list Qc) :=
  fold_left (fun f a => match f with Some f => forLevels (gatherBody fully d0 (dGrid a) (dCoeff a) (dValues a)) levels (dThreads a) f | None => None end)
    adds (Some f).

Section Trace.
Variables (rnd : Qc -> Qc) (d0 : DSG).
Hypothesis HP : forall i, ptrOf (dKPtr d0) i = ptrOf (dPtr d0) i.
Definition traced (d : DSG) (f : Z -> list Qc) : Prop :=
  sameShape d0 d /\ forall k, 0 <= k < dLen d0 -> (dData d k, dKahan d k) = kahanSum rnd (map rnd (f k)) (0, 0)%Qc.

Lemma gather_traced : forall c v ps sp d f, traced d f -> traced (addPointsR rnd c v ps sp sp d) (gather c v ps sp f).
Proof.
  intros c v. induction ps as [|p ps IH]; intros sp d f T; cbn [addPointsR gather]; auto. apply IH. destruct T as [Sh T].
  split; [eapply sameShape_trans; [exact Sh|repeat split]|].
  intros k Hk. cbn [kahanAddR dData dKahan]. unfold setA. destruct (Z.eqb_spec k sp) as [->|N]; [|now apply T].
  rewrite map_app. cbn [map]. rewrite kahan_snoc, <- T by auto. apply surjective_pairing.
Qed.

Lemma body_traced : forall fully g c v i l d f, traced d f -> traced (addBodyR rnd fully g c v i l d) (gatherBody fully d0 g c v i l f).
Proof.
  intros fully g c v i l d f T. pose proof T as [(S1 & S2 & S3 & S4 & S5 & S6) _]. unfold addBodyR, gatherBody.
  assert (E : shouldBeCopied fully d i = shouldBeCopied fully d0 i) by (unfold shouldBeCopied, dataSize; now rewrite S1, S2).
  rewrite E, S3, S5, HP. destruct (shouldBeCopied fully d0 i); auto. now apply gather_traced.
Qed.

Lemma all_traced : forall fully levels adds d f, traced d f ->
  match addAllR rnd fully levels adds d, gatherAll fully levels adds d0 f with
  | Some d', Some f' => traced d' f' | None, None => True | _, _ => False end.
Proof.
  intros fully levels adds d f T. unfold addAllR, gatherAll.
  assert (G : forall od of', match od, of' with Some d', Some f' => traced d' f' | None, None => True | _, _ => False end ->
    match fold_left (fun d a => match d with Some d => addDFGR rnd fully levels (dThreads a) (dGrid a) (dCoeff a) (dValues a) d | None => None end) adds od,
      fold_left (fun f a => match f with Some f => forLevels (gatherBody fully d0 (dGrid a) (dCoeff a) (dValues a)) levels (dThreads a) f | None => None end) adds of'
    with Some d', Some f' => traced d' f' | None, None => True | _, _ => False end); [|now apply G].
  clear T d f. induction adds as [|a adds IH]; intros od of' H; cbn [fold_left]; auto. apply IH.
  destruct od as [d|], of' as [f|]; try contradiction; auto. unfold addDFGR. apply forLevels_rel; auto.
  intros i q s t. apply body_traced.
Qed.
End Trace.

(** The summands of the three exact runs, element by element. *)
Lemma gather_rel : forall (R : Qc -> Qc -> Prop) c v c' v', (forall p, R (c * v p)%Qc (c' * v' p)%Qc) ->
  forall ps sp f f', (forall k, Forall2 R (f k) (f' k)) -> forall k, Forall2 R (gather c v ps sp f k) (gather c' v' ps sp f' k).
Proof.
  intros R c v c' v' H. induction ps as [|p ps IH]; intros sp f f' F; cbn [gather]; auto. apply IH. intros k.
  destruct (k =? sp); auto. apply Forall2_app; auto.
Qed.
Lemma gatherAll_rel : forall (R : Qc -> Qc -> Prop) (h : addition -> addition) fully levels d0,
  (forall a p, R (dCoeff a * dValues a p)%Qc (dCoeff (h a) * dValues (h a) p)%Qc) ->
  (forall a, dThreads (h a) = dThreads a /\ dGrid (h a) = dGrid a) ->
  forall adds f f', (forall k, Forall2 R (f k) (f' k)) ->
  match gatherAll fully levels adds d0 f, gatherAll fully levels (map h adds) d0 f' with
  | Some g, Some g' => forall k, Forall2 R (g k) (g' k) | None, None => True | _, _ => False end.
Proof.
  intros R h fully levels d0 HR HS. unfold gatherAll.
  set (Q := fun (x y : option (Z -> list Qc)) => match x, y with Some g, Some g' => forall k, Forall2 R (g k) (g' k) | None, None => True | _, _ => False end).
  assert (G : forall adds of' og', Q of' og' ->
    Q (fold_left (fun f a => match f with Some f => forLevels (gatherBody fully d0 (dGrid a) (dCoeff a) (dValues a)) levels (dThreads a) f | None => None end) adds of')
      (fold_left (fun f a => match f with Some f => forLevels (gatherBody fully d0 (dGrid a) (dCoeff a) (dValues a)) levels (dThreads a) f | None => None end) (map h adds) og')).
  { induction adds as [|a adds IH]; intros of' og' H; cbn [fold_left map]; [exact H|]. apply IH.
    destruct of' as [f|], og' as [f'|]; try contradiction; auto. destruct (HS a) as [-> ->].
    pose proof (forLevels_rel (fun g g' => forall k, Forall2 R (g k) (g' k)) (gatherBody fully d0 (dGrid a) (dCoeff a) (dValues a))
      (gatherBody fully d0 (dGrid a) (dCoeff (h a)) (dValues (h a))) levels (dThreads a) f f') as X.
    assert (Y : forall i q (s t : Z -> list Qc), (forall k, Forall2 R (s k) (t k)) -> forall k,
      Forall2 R (gatherBody fully d0 (dGrid a) (dCoeff a) (dValues a) i q s k) (gatherBody fully d0 (dGrid a) (dCoeff (h a)) (dValues (h a)) i q t k)).
    { intros i q s t F. unfold gatherBody. destruct (shouldBeCopied fully d0 i); auto. now apply gather_rel. }
    specialize (X Y H). unfold Q.
    destruct (forLevels (gatherBody fully d0 (dGrid a) (dCoeff a) (dValues a)) levels (dThreads a) f),
      (forLevels (gatherBody fully d0 (dGrid a) (dCoeff (h a)) (dValues (h a))) levels (dThreads a) f'); exact X. }
  intros adds f f' H. specialize (G adds (Some f) (Some f') H). unfold Q in G.
  match goal with |- match ?x with _ => _ end => destruct x end; match goal with |- match ?x with _ => _ end => destruct x | _ => idtac end; exact G.
Qed.

Lemma kahan_id : forall xs, kahanSum (fun x => x) xs (0, 0)%Qc = (qsum xs, 0%Qc).
Proof.
  induction xs as [|x xs IH] using rev_ind; [reflexivity|]. rewrite kahan_snoc, IH, qsum_app1. unfold kahanStep. cbn [fst snd]. f_equal; ring.
Qed.
Lemma qabs_mult : forall a b, qabs (a * b)%Qc = (qabs a * qabs b)%Qc.
Proof.
  intros a b. destruct (qabs_cases b) as [[L E]|[L E]]; rewrite E.
  - rewrite qabs_scale by qlra. rewrite <- qabs_opp. f_equal. ring.
  - now rewrite qabs_scale by auto.
Qed.

(** The error of every element of the sparse grid after adding any number of grids to a fresh one: at most (6 u + 18 n u^2)
    times the sum of the absolute values of its n summands. *)
Theorem C86_grid_error : forall u rnd fully levels adds d d', (0 <= u)%Qc -> (u * zq 64 <= 1)%Qc ->
  (forall z, (qabs (rnd z - z) <= u * qabs z)%Qc) -> fresh d -> addAllR rnd fully levels adds d = Some d' ->
  exists dExact dAbs dCount, addAllR (fun x => x) fully levels adds d = Some dExact /\
    addAllR (fun x => x) fully levels (map absolute adds) d = Some dAbs /\ addAllR (fun x => x) fully levels (map ones adds) d = Some dCount /\
    forall k, 0 <= k < dLen d -> let n := dData dCount k in (n * u <= 1)%Qc ->
      (qabs (dData d' k - dData dExact k) <= (zq 6 * u + zq 18 * n * u * u) * dData dAbs k)%Qc.
Proof.
  intros u rnd fully levels adds d d' Hu H64 HA [HZ HP] E.
  assert (T0 : forall r, traced r d d (fun _ => [])).
  { intros r. split; [apply sameShape_refl|]. intros k Hk. destruct (HZ k Hk) as [-> ->]. reflexivity. }
  pose proof (all_traced rnd d HP fully levels adds d _ (T0 _)) as A. rewrite E in A.
  pose proof (all_traced (fun x => x) d HP fully levels adds d _ (T0 _)) as B.
  pose proof (all_traced (fun x => x) d HP fully levels (map absolute adds) d _ (T0 _)) as C.
  pose proof (all_traced (fun x => x) d HP fully levels (map ones adds) d _ (T0 _)) as D.
  assert (RA := gatherAll_rel (fun x y => y = qabs x) absolute fully levels d
    ltac:(intros; cbn [absolute dCoeff dValues]; now rewrite qabs_mult) ltac:(intros; split; reflexivity) adds (fun _ => []) (fun _ => []) ltac:(constructor)).
  assert (RO := gatherAll_rel (fun x y => y = 1%Qc) ones fully levels d
    ltac:(intros; cbn [ones dCoeff dValues]; ring) ltac:(intros; split; reflexivity) adds (fun _ => []) (fun _ => []) ltac:(constructor)).
  destruct (gatherAll fully levels adds d (fun _ => [])) as [f|]; [|contradiction].
  destruct (gatherAll fully levels (map absolute adds) d (fun _ => [])) as [fa|]; [|contradiction].
  destruct (gatherAll fully levels (map ones adds) d (fun _ => [])) as [fo|]; [|contradiction].
  destruct (addAllR (fun x => x) fully levels adds d) as [dx|]; [|contradiction].
  destruct (addAllR (fun x => x) fully levels (map absolute adds) d) as [da|]; [|contradiction].
  destruct (addAllR (fun x => x) fully levels (map ones adds) d) as [dc|]; [|contradiction].
  exists dx, da, dc. split; auto. split; auto. split; auto. intros k Hk. cbv zeta.
  destruct A as [_ A]. destruct B as [_ B]. destruct C as [_ C]. destruct D as [_ D].
  specialize (A k Hk). specialize (B k Hk). specialize (C k Hk). specialize (D k Hk). specialize (RA k). specialize (RO k).
  rewrite map_id, kahan_id in B, C, D. injection B as EB _. injection C as EC _. injection D as ED _.
  assert (Eabs : fa k = map qabs (f k)). { clear - RA. induction RA; cbn; congruence. }
  assert (Eone : qsum (fo k) = zq (Z.of_nat (length (f k)))).
  { clear - RO. induction RO as [|x y l l' H _ IH]; [reflexivity|]. cbn [qsum fold_right length]. rewrite Nat2Z.inj_succ, <- Z.add_1_r, zq_add, zq_1.
    fold (qsum l'). rewrite IH, H. ring. }
  rewrite EB, EC, ED, Eabs, Eone. set (n := zq (Z.of_nat (length (f k)))). intros Hn.
  assert (Hlen : n = zq (Z.of_nat (length (map rnd (f k))))) by now rewrite map_length.
  assert (Ed : dData d' k = fst (kahanSum rnd (map rnd (f k)) (0, 0)%Qc)) by now rewrite <- A.
  rewrite Ed. rewrite Hlen in Hn. pose proof (C86_sum_error u rnd (map rnd (f k)) Hu H64 HA Hn) as ERR. cbv zeta in ERR. rewrite <- Hlen in ERR, Hn.
  set (s := fst (kahanSum rnd (map rnd (f k)) (0, 0)%Qc)) in *.
  assert (R1 : (qabs (qsum (map rnd (f k)) - qsum (f k)) <= u * qsum (map qabs (f k)))%Qc).
  { clear - HA. induction (f k) as [|x l IH]; cbn [map qsum fold_right]. { rewrite Qcmult_0_r. replace (0 - 0)%Qc with 0%Qc by ring. rewrite qabs_0. apply Qcle_refl. }
    fold (qsum l) (qsum (map rnd l)) (qsum (map qabs l)). pose proof (HA x) as H. pose proof (qabs_add (rnd x - x)%Qc (qsum (map rnd l) - qsum l)%Qc) as T.
    replace (rnd x + qsum (map rnd l) - (x + qsum l))%Qc with (rnd x - x + (qsum (map rnd l) - qsum l))%Qc by ring. rewrite Qcmult_plus_distr_r. qlra. }
  assert (R2 : (qsum (map qabs (map rnd (f k))) <= (1 + u) * qsum (map qabs (f k)))%Qc).
  { clear - HA. induction (f k) as [|x l IH]; cbn [map qsum fold_right]. { rewrite Qcmult_0_r. apply Qcle_refl. }
    fold (qsum (map qabs (map rnd l))) (qsum (map qabs l)). pose proof (HA x) as H. pose proof (qabs_add (rnd x - x)%Qc x) as T.
    replace (rnd x - x + x)%Qc with (rnd x) in T by ring. replace ((1 + u) * (qabs x + qsum (map qabs l)))%Qc with (qabs x + u * qabs x + (1 + u) * qsum (map qabs l))%Qc by ring. qlra. }
  pose proof (qsum_abs_nonneg (f k)) as HX.
  assert (Hn1 : f k <> [] -> (1 <= n)%Qc). { intros N. change 1%Qc with (zq 1). apply zq_le. destruct (f k); [contradiction|]. cbn [length]. lia. }
  assert (Hn0 : (0 <= n)%Qc) by (apply (zq_le 0); lia).
  assert (EF : f k = [] \/ f k <> []) by (destruct (f k); [left|right]; congruence). destruct EF as [EF|EF].
  { unfold s. rewrite EF. cbn. rewrite Qcmult_0_r. replace (0 - 0)%Qc with 0%Qc by ring. rewrite qabs_0. apply Qcle_refl. }
  assert (N1 : (1 <= n)%Qc) by auto. clear EF Hn1 A Hlen Ed RA RO.
  set (X := qsum (map qabs (f k))) in *. set (X' := qsum (map qabs (map rnd (f k)))) in *. set (sg := qsum (f k)) in *. set (sr := qsum (map rnd (f k))) in *.
  pose proof (qabs_add (s - sr)%Qc (sr - sg)%Qc) as T. replace (s - sr + (sr - sg))%Qc with (s - sg)%Qc in T by ring.
  clearbody s sr sg X X' n. clear - Hu H64 ERR R1 R2 T HX Hn N1 Hn0.
  assert (K0 : (0 <= zq 5 * u + zq 12 * n * u * u)%Qc).
  { assert (P : forall a b, (0 <= a)%Qc -> (0 <= b)%Qc -> (0 <= a * b)%Qc). { intros a b Ha Hb. rewrite <- (Qcmult_0_l b). now apply Qcmult_le_compat_r. }
    assert (P1 : (0 <= zq 5 * u)%Qc) by (apply P; auto; apply (zq_le 0); lia).
    assert (P2 : (0 <= zq 12 * n * u * u)%Qc) by (repeat apply P; auto; apply (zq_le 0); lia). clear - P1 P2. qlra. }
  assert (K1 : ((zq 5 * u + zq 12 * n * u * u) * X' <= (zq 5 * u + zq 12 * n * u * u) * ((1 + u) * X))%Qc).
  { rewrite !(Qcmult_comm (zq 5 * u + zq 12 * n * u * u)%Qc). now apply Qcmult_le_compat_r. }
  assert (U0 : (0 <= u * u)%Qc). { rewrite <- (Qcmult_0_l u). now apply Qcmult_le_compat_r. }
  assert (U1 : (u * u <= n * u * u)%Qc). { replace (u * u)%Qc with (1 * (u * u))%Qc by ring. replace (n * u * u)%Qc with (n * (u * u))%Qc by ring. now apply Qcmult_le_compat_r. }
  assert (U2 : (n * u * u * u * zq 64 <= n * u * u)%Qc).
  { replace (n * u * u * u * zq 64)%Qc with (u * zq 64 * (n * u * u))%Qc by ring. replace (n * u * u)%Qc with (1 * (n * u * u))%Qc at 2 by ring.
    apply Qcmult_le_compat_r; auto. clear - U0 U1. qlra. }
  assert (K2 : ((zq 5 * u + zq 12 * n * u * u) * (1 + u) + u <= zq 6 * u + zq 18 * n * u * u)%Qc).
  { replace ((zq 5 * u + zq 12 * n * u * u) * (1 + u) + u)%Qc with ((zq 5 * u + u) + (zq 5 * (u * u) + zq 12 * (n * u * u) + zq 12 * (n * u * u * u)))%Qc by ring.
    replace (zq 6 * u + zq 18 * n * u * u)%Qc with (zq 6 * u + zq 18 * (n * u * u))%Qc by ring.
    set (a := (u * u)%Qc) in *. set (b := (n * u * u)%Qc) in *. set (c := (n * u * u * u)%Qc) in *. clearbody a b c. clear - U0 U1 U2 Hu.
    toQ. rewrite ?this_zq in *. change (inject_Z 5) with 5%Q. change (inject_Z 6) with 6%Q. change (inject_Z 12) with 12%Q. change (inject_Z 18) with 18%Q.
    change (inject_Z 64) with 64%Q in *. lra. }
  pose proof (Qcmult_le_compat_r _ _ X K2 HX) as K3.
  replace (((zq 5 * u + zq 12 * n * u * u) * (1 + u) + u) * X)%Qc with ((zq 5 * u + zq 12 * n * u * u) * ((1 + u) * X) + u * X)%Qc in K3 by ring.
  clear - ERR R1 T K1 K3. set (a := ((zq 5 * u + zq 12 * n * u * u) * X')%Qc) in *. set (b := ((zq 5 * u + zq 12 * n * u * u) * ((1 + u) * X))%Qc) in *.
  set (c := ((zq 6 * u + zq 18 * n * u * u) * X)%Qc) in *. set (e := (u * X)%Qc) in *. clearbody a b c e. qlra.
Qed.

(** C87: the storage is ready for the next sum, data and compensation zero and each element with its own compensation: after
    deleting and creating it, after setZero if the element had its own compensation before, and, for elements of at most 8
    bytes, after choosing other subspaces ... *)
Lemma chosen_again : forall d1 d2, dSizes d2 = dSizes d1 -> dWith d2 = chosen d1 -> chosen d2 = chosen d1.
Proof.
  intros d1 d2 E1 E2. unfold chosen at 1. rewrite E2. unfold numSubspaces. rewrite E1. unfold chosen, numSubspaces. destruct (dWith d1); auto.
  destruct (zrange 0 _); auto.
Qed.
Lemma fresh_kahan : forall esz d1 d2, dSizes d2 = dSizes d1 -> dWith d2 = chosen d1 -> dPtr d2 = layout (dSizes d1) 0 0 (chosen d1) ->
  dLen d2 = accumulatedSize (dSizes d1) (chosen d1) -> (forall k, dData d2 k = 0%Qc) -> (0 < esz <= 8 \/ forall k, dKahan d2 k = 0%Qc) ->
  fresh (createKahanBuffer esz d2).
Proof.
  intros esz d1 d2 E1 E2 E3 E4 E5 E6. pose proof (chosen_again d1 d2 E1 E2) as EC. split.
  - intros k Hk. cbn [createKahanBuffer dLen dData dKahan] in *. rewrite EC, E1. rewrite E4 in Hk. split; auto.
    destruct (Z.leb_spec ((k + 1) * esz) (accumulatedSize (dSizes d1) (chosen d1) * 8)); auto. destruct E6 as [E6|E6]; [exfalso; nia|].
    unfold resizeZero. destruct (_ <? _); auto.
  - intros i. cbn [createKahanBuffer dKPtr dPtr]. now rewrite EC, E1, E3.
Qed.
Theorem C87_fresh_storage_partial : forall esz d w, 0 < esz ->
  fresh (createSubspaceData esz (deleteSubspaceData d)) /\
  ((forall i, ptrOf (dKPtr d) i = ptrOf (dPtr d) i) -> fresh (setZero d)) /\
  (esz <= 8 -> fresh (allocateDifferentSubspaces esz w d)).
Proof.
  intros esz d w He. split; [|split].
  - unfold createSubspaceData. cbn [dKLen deleteSubspaceData]. change (0 =? 0) with true. cbv zeta iota.
    apply (fresh_kahan esz (deleteSubspaceData d)); auto.
  - intros HP. split; [intros k _; split; reflexivity|exact HP].
  - intros H8. unfold allocateDifferentSubspaces.
    match goal with |- fresh (createKahanBuffer _ (createSubspaceData _ ?x)) => set (d1 := x) end.
    unfold createSubspaceData. cbv zeta. match goal with |- context [if ?b then _ else _] => destruct b end; apply (fresh_kahan esz d1); auto.
    cbn [createKahanBuffer dWith]. apply chosen_again; reflexivity.
Qed.

(** ... with complex numbers, 16 bytes each, half of the old compensation stays when other subspaces are chosen, and the next
    sum of zero and one half is not one half. *)
Definition exPart (c v : Q) : addition := {| dThreads := cThreads exC1; dGrid := cGrid exC1; dCoeff := Q2Qc c; dValues := fun _ => Q2Qc v |}.
Theorem C87_fresh_storage_refuted : exists u rnd levels sizes w w' first second d d', (0 < u)%Qc /\ (u * zq 64 <= 1)%Qc /\
  (forall z, (qabs (rnd z - z) <= u * qabs z)%Qc) /\ rnd (Q2Qc (1 # 2)) = Q2Qc (1 # 2) /\
  addAllR rnd false levels first (allocateDifferentSubspaces 16 w (withSizes sizes (initDSG 3))) = Some d /\
  addAllR rnd false levels [second] (allocateDifferentSubspaces 16 w' d) = Some d' /\
  dCoeff second = 1%Qc /\ (forall k, dValues second k = Q2Qc (1 # 2)) /\ dLen d' = 4 /\
  dData d' 0 = Q2Qc (1 # 2) /\ dData d' 3 <> Q2Qc (1 # 2).
Proof.
  set (d1 := addAllR (fpRound 7) false exLevels [exPart 1 1; exPart 1 (1 # 130)] (allocateDifferentSubspaces 16 [0] (withSizes [6; 0; 4] (initDSG 3)))).
  set (d2 := match d1 with Some d => addAllR (fpRound 7) false exLevels [exPart 1 (1 # 2)] (allocateDifferentSubspaces 16 [2] d) | None => None end).
  assert (H : match d1, d2 with Some d, Some d' => dLen d' = 4 /\ dData d' 0 = Q2Qc (1 # 2) /\ dData d' 3 <> Q2Qc (1 # 2) | _, _ => False end).
  { vm_compute. split; [reflexivity|]. split; [apply Qc_is_canon; reflexivity|]. intros H. apply (f_equal this) in H. cbn in H. discriminate. }
  exists (Q2Qc (1 # 64)), (fpRound 7), exLevels, [6; 0; 4], [0], [2], [exPart 1 1; exPart 1 (1 # 130)], (exPart 1 (1 # 2)).
  fold d1. unfold d2 in H. destruct d1 as [d|]; [|contradiction]. destruct (addAllR _ _ _ [exPart 1 (1 # 2)] _) as [d'|] eqn:E; [|contradiction].
  exists d, d'. split; [reflexivity|]. split; [discriminate|]. split; [apply (fpRound_accurate 7); lia|]. split; [apply Qc_is_canon; vm_compute; reflexivity|].
  split; [reflexivity|]. split; [exact E|]. split; [reflexivity|]. split; [reflexivity|]. exact H.
Qed.

(** Creating the storage again while it exists keeps the old compensation, too: createSubspaceData makes a new buffer for it only
    if there is none. *)
Theorem C87_create_refuted : exists u rnd levels sizes first second d d', (0 < u)%Qc /\ (u * zq 64 <= 1)%Qc /\
  (forall z, (qabs (rnd z - z) <= u * qabs z)%Qc) /\ rnd (Q2Qc (1 # 2)) = Q2Qc (1 # 2) /\
  addAllR rnd true levels first (createSubspaceData 8 (withSizes sizes (initDSG 3))) = Some d /\
  addAllR rnd true levels [second] (createSubspaceData 8 d) = Some d' /\
  dCoeff second = 1%Qc /\ (forall k, dValues second k = Q2Qc (1 # 2)) /\ dLen d' = 10 /\ dData d' 0 <> Q2Qc (1 # 2).
Proof.
  set (d1 := addAllR (fpRound 7) true exLevels [exPart 1 1; exPart 1 (1 # 130)] (createSubspaceData 8 (withSizes [6; 0; 4] (initDSG 3)))).
  set (d2 := match d1 with Some d => addAllR (fpRound 7) true exLevels [exPart 1 (1 # 2)] (createSubspaceData 8 d) | None => None end).
  assert (H : match d1, d2 with Some d, Some d' => dLen d' = 10 /\ dData d' 0 <> Q2Qc (1 # 2) | _, _ => False end).
  { vm_compute. split; [reflexivity|]. intros H. apply (f_equal this) in H. cbn in H. discriminate. }
  exists (Q2Qc (1 # 64)), (fpRound 7), exLevels, [6; 0; 4], [exPart 1 1; exPart 1 (1 # 130)], (exPart 1 (1 # 2)).
  fold d1. unfold d2 in H. destruct d1 as [d|]; [|contradiction]. destruct (addAllR _ _ _ [exPart 1 (1 # 2)] _) as [d'|] eqn:E; [|contradiction].
  exists d, d'. split; [reflexivity|]. split; [discriminate|]. split; [apply (fpRound_accurate 7); lia|]. split; [apply Qc_is_canon; vm_compute; reflexivity|].
  split; [reflexivity|]. split; [exact E|]. split; [reflexivity|]. split; [reflexivity|]. exact H.
Qed.

(** * Examples *)
(** With 7 digits, 1 and twenty times 1/130: the plain sum loses all small summands, the compensated one does not. *)
Example C86_ex : let xs := 1%Qc :: repeat (Q2Qc (1 # 130)) 20 in
  (forall z, (qabs (fpRound 7 z - z) <= Q2Qc (1 # 64) * qabs z)%Qc) /\ (zq (Z.of_nat (length xs)) * Q2Qc (1 # 64) <= 1)%Qc /\
  fold_left (fun s x => fpRound 7 (s + x)%Qc) xs 0%Qc = 1%Qc /\ fst (kahanSum (fpRound 7) xs (0, 0)%Qc) = Q2Qc (147 # 128).
Proof.
  cbv zeta. split; [apply (fpRound_accurate 7); lia|]. split; [vm_compute; discriminate|].
  split; apply Qc_is_canon; vm_compute; reflexivity.
Qed.
Example C86_grid_ex : let d := createSubspaceData 8 (deleteSubspaceData (withSizes [6; 0; 4] (initDSG 3))) in
  fresh d /\ dLen d = 10 /\
  match addAllR (fpRound 7) true exLevels [exPart 1 1; exPart (1 # 3) (1 # 50); exPart (-2) (1 # 130)] d,
        addAllR (fun x => x) true exLevels (map ones [exPart 1 1; exPart (1 # 3) (1 # 50); exPart (-2) (1 # 130)]) d with
  | Some d', Some dc => dData dc 7 = zq 3 /\ (zq 3 * Q2Qc (1 # 64) <= 1)%Qc /\ dData d' 7 = Q2Qc (253 # 256)
  | _, _ => False
  end.
Proof.
  cbv zeta. split; [apply (C87_fresh_storage_partial 8 (withSizes [6; 0; 4] (initDSG 3)) []); lia|]. split; [reflexivity|].
  vm_compute. split; [apply Qc_is_canon; reflexivity|]. split; [discriminate|]. apply Qc_is_canon; reflexivity.
Qed.
Example C87_ex : let d := allocateDifferentSubspaces 8 [2] (allocateDifferentSubspaces 8 [0] (withSizes [6; 0; 4] (initDSG 3))) in
  fresh d /\ dLen d = 4 /\ fresh (setZero d).
Proof.
  cbv zeta. split; [apply C87_fresh_storage_partial; lia|]. split; [reflexivity|]. apply (C87_fresh_storage_partial 8 _ []); [lia|]. intros i. reflexivity.
Qed.

Print Assumptions C86_sum_error.
Print Assumptions C86_grid_error.
Print Assumptions C87_fresh_storage_partial.
Print Assumptions C87_fresh_storage_refuted.
Print Assumptions C87_create_refuted.
