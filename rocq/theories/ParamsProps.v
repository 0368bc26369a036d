(** C117: the parameters at the workers after updateCombiParameters; C118: the basis functions of the parameters. *)
From Verif Require Import Base FaultModel FaultParamProofs ParamsModel.
From Coq Require Import String QArith Qcanon List Lia.
Import ListNotations.
Open Scope list_scope.
Open Scope Z_scope.
Ltac Zify.zify_post_hook ::= idtac.

(** * Archives *)
Definition codec {A} (s : A -> list token) (l : list token -> option (A * list token)) : Prop :=
  forall a r, l (s a ++ r) = Some (a, r).

Lemma int_codec : codec saveInt loadInt. Proof. intros a r. reflexivity. Qed.
Lemma real_codec : codec (fun q => [TReal q]) loadReal. Proof. intros a r. reflexivity. Qed.
Lemma class_codec : codec (fun q => [TClass q]) loadClass. Proof. intros a r. reflexivity. Qed.
Lemma str_codec : codec (fun q => [TStr q]) loadStr. Proof. intros a r. reflexivity. Qed.
Lemma bool_codec : codec saveBool loadBool. Proof. intros [] r; reflexivity. Qed.

Lemma many_codec : forall {A} (s : A -> list token) l, codec s l -> forall xs r,
  loadMany l (length xs) (flat_map s xs ++ r) = Some (xs, r).
Proof.
  intros A s l C. induction xs as [|x xs IH]; intros r; [reflexivity|]. cbn [length loadMany flat_map].
  rewrite <- app_assoc, C, IH. reflexivity.
Qed.

Lemma vec_codec : forall {A} (s : A -> list token) l, codec s l -> codec (saveVec s) (loadVec l).
Proof.
  intros A s l C xs r. unfold saveVec, loadVec. cbn [app loadInt]. rewrite Nat2Z.id. now apply many_codec.
Qed.

Lemma entry_codec : forall {A} (s : A -> list token) l, codec s l -> codec (saveEntry s) (loadEntry l).
Proof. intros A s l C [k v] r. unfold saveEntry, loadEntry. cbn [fst snd app loadInt]. now rewrite C. Qed.

Lemma zassign_new : forall {A} k (v : A) m, ~ In k (map fst m) -> zassign k v m = m ++ [(k, v)].
Proof.
  intros A k v. induction m as [|[k' v'] m IH]; intros N; [reflexivity|]. cbn [zassign map fst app] in *.
  destruct (Z.eqb_spec k k') as [->|]; [exfalso; apply N; now left|]. f_equal. apply IH. intros H. apply N. now right.
Qed.

Lemma insert_all : forall {A} (es m : list (Z * A)), NoDup (map fst (m ++ es)) ->
  fold_left (fun m e => zassign (fst e) (snd e) m) es m = m ++ es.
Proof.
  intros A. induction es as [|[k v] es IH]; intros m ND; [now rewrite app_nil_r|]. cbn [fold_left fst snd].
  assert (N : ~ In k (map fst m)).
  { intros H. rewrite map_app in ND. cbn [map fst] in ND. apply NoDup_remove_2 in ND. apply ND. apply in_or_app. now left. }
  rewrite (zassign_new k v m N), IH; rewrite <- app_assoc; [reflexivity|exact ND].
Qed.

Lemma map_codec : forall {A} (s : A -> list token) l, codec s l -> forall m r, NoDup (map fst m) ->
  loadMap l (saveVec (saveEntry s) m ++ r) = Some (m, r).
Proof.
  intros A s l C m r ND. unfold loadMap. rewrite (vec_codec _ _ (entry_codec _ _ C)). now rewrite insert_all.
Qed.

(** * The heap *)
Definition heapExt (h h' : heap) : Prop := forall a k, deref h a = Some k -> deref h' a = Some k.

Lemma deref_lt : forall h a k, deref h a = Some k -> (a < length h)%nat.
Proof. intros h a k H. unfold deref in H. destruct (nth_error h a) eqn:E; [|discriminate]. apply nth_error_Some. congruence. Qed.

Lemma deref_app : forall h x a, (a < length h)%nat -> deref (h ++ x) a = deref h a.
Proof. intros h x a L. unfold deref. now rewrite nth_error_app1. Qed.

Definition ptrs (ps : list (option nat)) : list nat := flat_map (fun p => match p with Some a => [a] | None => [] end) ps.

Lemma alloc_spec : forall ks h h' ps, allocBases h ks = (h', ps) ->
  (exists x, h' = h ++ x) /\ length ps = length ks /\ derefAll h' ps = Some ks /\ NoDup (ptrs ps)
  /\ Forall (fun a => (length h <= a < length h')%nat) (ptrs ps).
Proof.
  induction ks as [|[k|] ks IH]; intros h h' ps E; cbn [allocBases] in E.
  - injection E as <- <-. repeat split; auto; [exists []; now rewrite app_nil_r|constructor|constructor].
  - destruct (allocBases (h ++ [Some k]) ks) as [h1 ps1] eqn:E1. injection E as <- <-.
    destruct (IH _ _ _ E1) as ((x & X) & L & D & ND & F). rewrite app_length in F. cbn [length] in F.
    cbn [length ptrs flat_map app derefAll]. fold (ptrs ps1). subst h1. repeat split.
    + exists (Some k :: x). now rewrite <- app_assoc.
    + now rewrite L.
    + rewrite D. rewrite deref_app by (rewrite app_length; cbn; lia). unfold deref. rewrite nth_error_app2, Nat.sub_diag by lia. reflexivity.
    + constructor; auto. intros H. rewrite Forall_forall in F. specialize (F _ H). cbn beta in F. lia.
    + constructor; [rewrite !app_length; cbn; lia|]. eapply Forall_impl; [|exact F]. cbn beta. intros a. lia.
  - destruct (allocBases h ks) as [h1 ps1] eqn:E1. injection E as <- <-.
    destruct (IH _ _ _ E1) as (X & L & D & ND & F). cbn [length ptrs flat_map app derefAll]. rewrite D, L. auto.
Qed.

Lemma derefAll_app : forall ps h x ks, derefAll h ps = Some ks -> derefAll (h ++ x) ps = Some ks.
Proof.
  induction ps as [|[a|] ps IH]; intros h x ks E; cbn [derefAll] in *; auto.
  - destruct (deref h a) as [k|] eqn:D; [|discriminate]. destruct (derefAll h ps) eqn:E1; [|discriminate].
    rewrite deref_app by (eapply deref_lt; eauto). now rewrite D, (IH _ _ _ E1).
  - destruct (derefAll h ps) eqn:E1; [|discriminate]. now rewrite (IH _ _ _ E1).
Qed.

Lemma derefAll_length : forall ps h ks, derefAll h ps = Some ks -> length ks = length ps.
Proof.
  induction ps as [|[a|] ps IH]; intros h ks E; cbn [derefAll] in *; [now injection E as <-| |].
  - destruct (deref h a); [|discriminate]. destruct (derefAll h ps) eqn:E1; [|discriminate]. injection E as <-. cbn. f_equal. eauto.
  - destruct (derefAll h ps) eqn:E1; [|discriminate]. injection E as <-. cbn. f_equal. eauto.
Qed.

Lemma derefAll_ext : forall ps h h', (forall a, In a (ptrs ps) -> deref h' a = deref h a) -> derefAll h' ps = derefAll h ps.
Proof.
  induction ps as [|[a|] ps IH]; intros h h' H; cbn [derefAll]; auto.
  - rewrite (IH h h') by (intros b Hb; apply H; now right). rewrite H by now left. reflexivity.
  - rewrite (IH h h'); auto.
Qed.

Lemma derefAll_live : forall ps h, (derefAll h ps <> None) <-> (forall a, In a (ptrs ps) -> deref h a <> None).
Proof.
  induction ps as [|[a|] ps IH]; intros h; [|change (ptrs (Some a :: ps)) with (a :: ptrs ps)|change (ptrs (None :: ps)) with (ptrs ps)]; cbn [derefAll In].
  - split; [intros _ a []|discriminate].
  - specialize (IH h). destruct (deref h a) as [k|] eqn:D.
    + destruct (derefAll h ps) as [ks|] eqn:E.
      * split; [|discriminate]. intros _ b [<-|Hb]; [congruence|]. apply IH; auto. discriminate.
      * split; [congruence|]. intros H. exfalso. apply IH; auto.
    + split; [congruence|]. intros H. exfalso. apply (H a); auto.
  - specialize (IH h). destruct (derefAll h ps) as [ks|] eqn:E.
    + split; [|discriminate]. intros _. now apply IH.
    + split; [congruence|]. intros H. exfalso. now apply IH.
Qed.

Lemma kill_spec : forall h a b, (a < length h)%nat ->
  deref (firstn a h ++ None :: skipn (S a) h) b = if Nat.eq_dec b a then None else deref h b.
Proof.
  intros h a b L. unfold deref. destruct (Nat.eq_dec b a) as [->|N].
  - rewrite nth_error_app2 by (rewrite firstn_length; lia). rewrite firstn_length, Nat.min_l, Nat.sub_diag by lia. reflexivity.
  - destruct (Nat.lt_ge_cases b a).
    + rewrite nth_error_app1 by (rewrite firstn_length; lia). f_equal.
      rewrite <- (firstn_skipn a h) at 2. rewrite nth_error_app1 by (rewrite firstn_length; lia). reflexivity.
    + rewrite nth_error_app2 by (rewrite firstn_length; lia). rewrite firstn_length, Nat.min_l by lia.
      destruct (b - a)%nat as [|m] eqn:Em; [lia|]. cbn [nth_error].
      rewrite <- (firstn_skipn (S a) h) at 2. rewrite nth_error_app2 by (rewrite firstn_length; lia).
      rewrite firstn_length, Nat.min_l by lia. replace (b - S a)%nat with m by lia. reflexivity.
Qed.

Lemma delete_spec : forall ps h, NoDup (ptrs ps) -> (forall a, In a (ptrs ps) -> deref h a <> None) ->
  exists h', deleteAll h ps = Some h' /\ (forall b, deref h' b = if in_dec Nat.eq_dec b (ptrs ps) then None else deref h b).
Proof.
  induction ps as [|[a|] ps IH]; intros h ND LV; cbn [deleteAll].
  - exists h. split; auto.
  - change (ptrs (Some a :: ps)) with (a :: ptrs ps) in *. apply NoDup_cons_iff in ND as [Na ND].
    destruct (deref h a) as [k|] eqn:D; [|exfalso; apply (LV a); auto; now left].
    pose proof (deref_lt _ _ _ D) as La.
    destruct (IH (firstn a h ++ None :: skipn (S a) h)) as (h' & E & HD); auto.
    { intros b Hb. rewrite kill_spec by auto. destruct (Nat.eq_dec b a) as [->|]; [tauto|]. apply LV. now right. }
    exists h'. split; auto. intros b. rewrite HD, kill_spec by auto.
    destruct (in_dec Nat.eq_dec b (ptrs ps)), (in_dec Nat.eq_dec b (a :: ptrs ps)) as [I|I]; auto.
    + exfalso. apply I. now right.
    + destruct (Nat.eq_dec b a) as [->|]; auto. destruct I; [congruence|tauto].
    + destruct (Nat.eq_dec b a) as [->|]; auto. exfalso. apply I. now left.
  - apply IH; auto.
Qed.

(** * Parameters built with the API *)
(** All ways to build and change parameters on one process: the constructors (on any heap), setCoeff of a known ID,
    setLevelsCoeffs, getID (which may insert), setParallelization, setDecomposition and setHierarchicalBases with new
    bases (or nullptr), one for each dimension. *)
Inductive built : heap -> cparams -> Prop :=
| built_tasks : forall h a ids levels coeffs procs h' c,
    constructTasks h a ids levels coeffs procs = (h', c) -> built h' c
| built_workers : forall h a procs h' c, constructWorkers h a procs = (h', c) -> built h' c
| built_dims : forall h a hd ids levels coeffs h' c, constructDims h a hd ids levels coeffs = (h', c) -> built h' c
| built_coeff : forall h c id q, built h c -> In id (map fst (pCoeffs (cMaps c))) ->
    built h (withMaps c (setCoeff (cMaps c) id q))
| built_levels : forall h c ids levels coeffs, built h c ->
    built h (withMaps c (setLevelsCoeffs (cMaps c) ids levels coeffs))
| built_id : forall h c l, built h c -> built h (withMaps c (snd (getID (cMaps c) l)))
| built_procs : forall h c p, built h c -> built h (setParallelization c p)
| built_decomp : forall h c d, built h c -> built h (setDecomposition c d)
| built_bases : forall h c ks h1 ps h' c', built h c -> length ks = Z.to_nat (cDim c) -> allocBases h ks = (h1, ps) ->
    setBases h1 c ps = Some (h', c') -> built h' c'
| built_other : forall h c ks h1 ps, built h c -> allocBases h ks = (h1, ps) -> built h1 c.

Definition goodParams (h : heap) (c : cparams) : Prop :=
  derefAll h (cBases c) <> None /\ NoDup (ptrs (cBases c)) /\ length (cBases c) = Z.to_nat (cDim c)
  /\ NoDup (map fst (pLevels (cMaps c))) /\ NoDup (map fst (pCoeffs (cMaps c))).

Lemma zassign_nodup : forall {A} k (v : A) m, NoDup (map fst m) -> NoDup (map fst (zassign k v m)).
Proof.
  intros A k v m ND. rewrite zassign_keys. destruct (in_dec Z.eq_dec k (map fst m)) as [|N]; auto.
  rewrite <- (rev_involutive (map fst m ++ [k])). apply NoDup_rev. rewrite rev_app_distr. cbn. constructor.
  - now rewrite <- in_rev.
  - now apply NoDup_rev.
Qed.

Lemma setLevels_nodup : forall ids levels coeffs p, NoDup (map fst (pLevels p)) -> NoDup (map fst (pCoeffs p)) ->
  NoDup (map fst (pLevels (setLevelsCoeffs p ids levels coeffs))) /\ NoDup (map fst (pCoeffs (setLevelsCoeffs p ids levels coeffs))).
Proof.
  induction ids as [|i ids IH]; intros levels coeffs p N1 N2; [auto|]. destruct levels as [|l levels], coeffs as [|c coeffs]; auto.
  cbn [setLevelsCoeffs]. apply IH; cbn [setOne pLevels pCoeffs]; now apply zassign_nodup.
Qed.

Lemma make_good : forall h a hd h' c, makeParams h a hd = (h', c) -> goodParams h' c /\ cMaps c = noParams.
Proof.
  intros h a hd h' c E. unfold makeParams in E. destruct (allocBases h (defaultKinds (aDim a) (aBoundary a))) as [h1 ps] eqn:EA.
  injection E as <- <-. destruct (alloc_spec _ _ _ _ EA) as (_ & L & D & ND & _). split; [|reflexivity].
  unfold goodParams. cbn [cBases cDim cMaps]. rewrite Nat2Z.id, D. unfold defaultKinds in L. rewrite map_length, seq_length in L.
  repeat split; auto; try constructor. discriminate.
Qed.

Lemma set_good : forall h c ps h', (forall a, In a (ptrs ps) -> ~ In a (ptrs (cBases c))) ->
  length ps = Z.to_nat (cDim c) -> goodParams h c -> NoDup (ptrs ps) -> derefAll h ps <> None ->
  deleteAll h (cBases c) = Some h' -> setBases h c ps = Some (h', withBases c ps) /\ derefAll h' ps = derefAll h ps.
Proof.
  intros h c ps h' DJ L (LV & ND & LB & _) NP DP ED. unfold setBases. rewrite ED.
  destruct (Nat.leb_spec (length ps) (length (cBases c))); [|lia].
  replace (length (cBases c) - length ps)%nat with 0%nat by lia. cbn [repeat]. rewrite app_nil_r. split; auto.
  destruct (delete_spec (cBases c) h ND) as (h2 & E2 & HD); [now apply derefAll_live|]. rewrite ED in E2. injection E2 as <-.
  apply derefAll_ext. intros a Ha. rewrite HD. destruct (in_dec Nat.eq_dec a (ptrs (cBases c))) as [I|]; auto. exfalso. now apply (DJ a).
Qed.

Lemma live_lt : forall h ps a, derefAll h ps <> None -> In a (ptrs ps) -> (a < length h)%nat.
Proof.
  intros h ps a LV Ha. pose proof (proj1 (derefAll_live ps h) LV a Ha) as D. destruct (deref h a) as [k|] eqn:E; [|congruence].
  eapply deref_lt; eauto.
Qed.

Lemma good_alloc : forall h c ks h1 ps, goodParams h c -> allocBases h ks = (h1, ps) -> goodParams h1 c.
Proof.
  intros h c ks h1 ps (LV & R) EA. destruct (alloc_spec _ _ _ _ EA) as ((x & ->) & _). split; auto.
  destruct (derefAll h (cBases c)) eqn:E; [|congruence]. rewrite (derefAll_app _ _ x _ E). discriminate.
Qed.

Lemma replace_bases : forall h c ks h1 ps, goodParams h c -> length ks = Z.to_nat (cDim c) -> allocBases h ks = (h1, ps) ->
  exists h', setBases h1 c ps = Some (h', withBases c ps) /\ goodParams h' (withBases c ps) /\ derefAll h' ps = Some ks
    /\ (forall a, deref h' a = if in_dec Nat.eq_dec a (ptrs (cBases c)) then None else deref h1 a).
Proof.
  intros h c ks h1 ps G L EA. pose proof (good_alloc _ _ _ _ _ G EA) as G1.
  destruct (alloc_spec _ _ _ _ EA) as ((x & X) & LP & DP & NP & FP).
  pose proof G1 as (LV & ND & LB & N1 & N2).
  destruct (delete_spec (cBases c) h1 ND) as (h' & ED & HD); [now apply derefAll_live|].
  destruct (set_good h1 c ps h') as [ES DE]; auto; try lia.
  { intros a Ha Hb. rewrite Forall_forall in FP. specialize (FP a Ha). cbn beta in FP.
    pose proof (live_lt h (cBases c) a (proj1 G) Hb). lia. }
  { rewrite DP. discriminate. }
  exists h'. split; auto. split; [|split; [congruence|auto]]. unfold goodParams, withBases. cbn [cBases cDim cMaps].
  rewrite DE, DP. repeat split; auto; [discriminate|lia].
Qed.

Lemma built_good : forall h c, built h c -> goodParams h c.
Proof.
  intros h c B. induction B as [h a ids levels coeffs procs h' c E|h a procs h' c E|h a hd ids levels coeffs h' c E
    |h c id q B IH I|h c ids levels coeffs B IH|h c l B IH|h c p B IH|h c d B IH|h c ks h1 ps h' c' B IH L EA ES|h c ks h1 ps B IH EA].
  - unfold constructTasks in E. destruct (makeParams h a (repeat true (aDim a))) as [h1 c1] eqn:EM.
    apply make_good in EM as [(A1 & A2 & A3 & A4 & A5) _]. injection E as <- <-.
    destruct (setLevels_nodup ids levels coeffs _ A4 A5).
    unfold maybeParallelization. destruct (list_eq_dec Z.eq_dec procs [0]); repeat split; auto.
  - unfold constructWorkers in E. destruct (makeParams h a (repeat true (aDim a))) as [h1 c1] eqn:EM.
    apply make_good in EM as [G _]. injection E as <- <-.
    unfold maybeParallelization. destruct (list_eq_dec Z.eq_dec procs [0]); exact G.
  - unfold constructDims in E. destruct (makeParams h a hd) as [h1 c1] eqn:EM.
    apply make_good in EM as [(A1 & A2 & A3 & A4 & A5) _]. injection E as <- <-.
    destruct (setLevels_nodup ids levels coeffs _ A4 A5). repeat split; auto.
  - destruct IH as (A1 & A2 & A3 & A4 & A5). repeat split; auto; cbn [withMaps cMaps setCoeff pLevels pCoeffs].
    + destruct (zfind id (pLevels (cMaps c))); auto. now apply zassign_nodup.
    + now apply zassign_nodup.
  - destruct IH as (A1 & A2 & A3 & A4 & A5). destruct (setLevels_nodup ids levels coeffs _ A4 A5). repeat split; auto.
  - destruct IH as (A1 & A2 & A3 & A4 & A5). unfold getID. destruct (dfind l (pIds (cMaps c))); repeat split; auto.
  - exact IH.
  - exact IH.
  - destruct (replace_bases _ _ _ _ _ IH L EA) as (h2 & E2 & G & _). rewrite E2 in ES. injection ES as <- <-. exact G.
  - eapply good_alloc; eauto.
Qed.

(** * C117 *)
(** What a process can ask the parameters of another, without the two maps by level: everything is as on the other process,
    and the bases are of the same kinds and alive. *)
Definition sameAnswers (h : heap) (c : cparams) (h' : heap) (c' : cparams) : Prop :=
  (cDim c' = cDim c /\ cLmin c' = cLmin c /\ cLmax c' = cLmax c /\ cBoundary c' = cBoundary c)
  /\ (forall id, getCoeff (cMaps c') id = getCoeff (cMaps c) id /\ getLevel (cMaps c') id = getLevel (cMaps c) id)
  /\ (pLevels (cMaps c') = pLevels (cMaps c) /\ pCoeffs (cMaps c') = pCoeffs (cMaps c))
  /\ (cHierDims c' = cHierDims c /\ cProcs c' = cProcs c /\ cDecomp c' = cDecomp c /\ cForward c' = cForward c)
  /\ (cNumCombi c' = cNumCombi c /\ cNumGrids c' = cNumGrids c /\ cVariant c' = cVariant c /\ cChunk c' = cChunk c)
  /\ (cReduceLmin c' = cReduceLmin c /\ cReduceLmax c' = cReduceLmax c)
  /\ (cHost c' = cHost c /\ cPort c' = cPort c /\ cPG c' = cPG c)
  /\ (exists ks, derefAll h (cBases c) = Some ks /\ derefAll h' (cBases c') = Some ks).

Lemma load_save : forall h c hw old ks, goodParams h c -> derefAll h (cBases c) = Some ks ->
  exists t hw' ps, saveParams h c = Some t /\ allocBases hw ks = (hw', ps)
    /\ loadParams hw old t = Some (hw', withBases (withMaps c (FaultModel.Params (pLevels (cMaps c)) (pCoeffs (cMaps c))
                                     (pIds (cMaps old)) (pDict (cMaps old)))) ps).
Proof.
  intros h c hw old ks (_ & _ & _ & N1 & N2) D. unfold saveParams. rewrite D. destruct (allocBases hw ks) as [hw' ps] eqn:EA.
  eexists _, hw', ps. split; [reflexivity|]. split; [reflexivity|]. unfold loadParams, bindLoad.
  rewrite int_codec.
  rewrite !(vec_codec _ _ int_codec).
  rewrite (map_codec _ _ (vec_codec _ _ int_codec)) by auto.
  rewrite (map_codec _ _ real_codec) by auto.
  rewrite (vec_codec _ _ bool_codec), (vec_codec _ _ class_codec), (vec_codec _ _ int_codec).
  rewrite (vec_codec _ _ (vec_codec _ _ int_codec)), bool_codec, !int_codec.
  rewrite !(vec_codec _ _ int_codec). rewrite str_codec, int_codec.
  rewrite <- (app_nil_r (saveInt (cPG c))), int_codec, EA. reflexivity.
Qed.

Lemma take_spec : forall h c g w, goodParams h c ->
  exists t w', saveParams h c = Some t /\ takeParams g w t = Some w' /\ pwSet w' = true
    /\ goodParams (pwHeap w') (pwParams w') /\ sameAnswers h c (pwHeap w') (pwParams w')
    /\ pIds (cMaps (pwParams w')) = [] /\ pDict (cMaps (pwParams w')) = [].
Proof.
  intros h c g w G. pose proof G as (LV & ND & L & N1 & N2). destruct (derefAll h (cBases c)) as [ks|] eqn:D; [|congruence].
  destruct (load_save h c (pwHeap w) (blank g) ks G D) as (t & hw' & ps & ES & EA & EL).
  exists t. unfold takeParams. rewrite EL. eexists. split; [exact ES|]. split; [reflexivity|]. cbn [pwSet pwHeap pwParams].
  destruct (alloc_spec _ _ _ _ EA) as (_ & LP & DP & NP & _).
  split; [reflexivity|]. split.
  { unfold goodParams, withBases, withMaps. cbn [cBases cDim cMaps pLevels pCoeffs]. rewrite DP.
    rewrite (derefAll_length _ _ _ D) in LP. repeat split; auto; lia. }
  split; [|split; reflexivity]. unfold sameAnswers, withBases, withMaps, getCoeff, getLevel.
  cbn [cDim cLmin cLmax cBoundary cMaps cHierDims cBases cProcs cDecomp cForward cNumCombi cNumGrids cVariant cReduceLmin cReduceLmax
       cChunk cHost cPort cPG pLevels pCoeffs]. repeat split; auto. exists ks. auto.
Qed.

Lemma same_trans : forall h1 c1 h2 c2 h3 c3, sameAnswers h1 c1 h2 c2 -> sameAnswers h2 c2 h3 c3 -> sameAnswers h1 c1 h3 c3.
Proof.
  intros h1 c1 h2 c2 h3 c3 ((A1 & A2 & A3 & A4) & A5 & (A6 & A7) & (A8 & A9 & A10 & A11) & (A12 & A13 & A14 & A15) & (A16 & A17) & (A18 & A19 & A20) & ks & A21 & A22)
    ((B1 & B2 & B3 & B4) & B5 & (B6 & B7) & (B8 & B9 & B10 & B11) & (B12 & B13 & B14 & B15) & (B16 & B17) & (B18 & B19 & B20) & ks' & B21 & B22).
  assert (ks' = ks) by congruence. subst ks'. repeat split; try congruence; try (etransitivity; [apply B5|apply A5]). exists ks. auto.
Qed.

Definition informed (h : heap) (c : cparams) (w : paramWorker) : Prop :=
  pwSet w = true /\ goodParams (pwHeap w) (pwParams w) /\ sameAnswers h c (pwHeap w) (pwParams w)
  /\ pIds (cMaps (pwParams w)) = [] /\ pDict (cMaps (pwParams w)) = [].

Lemma takeAll_spec : forall g h c t, goodParams h c -> saveParams h c = Some t -> forall ws,
  exists ws', takeAll g ws t = Some ws' /\ length ws' = length ws /\ Forall (informed h c) ws'.
Proof.
  intros g h c t G ES. induction ws as [|w ws (ws' & E & L & F)]; [exists []; auto|]. cbn [takeAll].
  destruct (take_spec h c g w G) as (t1 & w' & E1 & E2 & R). rewrite ES in E1. injection E1 as <-.
  rewrite E2, E. exists (w' :: ws'). cbn [length]. repeat split; auto.
Qed.

Lemma group_spec : forall g h c t, goodParams h c -> saveParams h c = Some t -> forall ws,
  exists ws', updateGroup g t ws = Some ws' /\ length ws' = length ws /\ Forall (informed h c) ws'.
Proof.
  intros g h c t G ES [|m ws]; [exists []; auto|]. cbn [updateGroup].
  destruct (take_spec h c g m G) as (t1 & m' & E1 & E2 & R). rewrite ES in E1. injection E1 as <-. rewrite E2.
  pose proof R as (_ & G' & SA & _).
  destruct (derefAll (pwHeap m') (cBases (pwParams m'))) as [ks|] eqn:D; [|destruct G'; congruence].
  destruct (load_save _ _ [] (pwParams m') ks G' D) as (t2 & _ & _ & ES2 & _). rewrite ES2.
  destruct (takeAll_spec g _ _ t2 G' ES2 ws) as (ws' & E & L & F). rewrite E. exists (m' :: ws'). cbn [length].
  split; [reflexivity|]. split; [now f_equal|]. constructor; [exact R|]. eapply Forall_impl; [|exact F].
  intros w (S1 & S2 & S3 & S4). split; [exact S1|]. split; [exact S2|]. split; [|exact S4]. eapply same_trans; eauto.
Qed.

Lemma groups_spec : forall g h c, goodParams h c -> forall gs,
  exists gs', updateGroups g h c gs = Some gs' /\ Forall2 (fun ws ws' => length ws' = length ws /\ Forall (informed h c) ws') gs gs'.
Proof.
  intros g h c G. induction gs as [|ws gs (gs' & E & F)]; [exists []; auto|]. cbn [updateGroups].
  destruct (derefAll h (cBases c)) as [ks|] eqn:D; [|destruct G; congruence].
  destruct (load_save _ _ [] c ks G D) as (t & _ & _ & ES & _). rewrite ES.
  destruct (group_spec g h c t G ES ws) as (ws' & E1 & R). rewrite E1, E. exists (ws' :: gs'). auto.
Qed.

(** After updateCombiParameters every worker of every group answers all queries like the manager, up to the maps by level,
    whatever its parameters were before. *)
Theorem C117_all_workers_partial : forall g h c gs, built h c ->
  exists gs', updateGroups g h c gs = Some gs' /\
    Forall2 (fun ws ws' => length ws' = length ws /\
      Forall (fun w => pwSet w = true /\ sameAnswers h c (pwHeap w) (pwParams w)) ws') gs gs'.
Proof.
  intros g h c gs B. destruct (groups_spec g h c (built_good _ _ B) gs) as (gs' & E & F). exists gs'. split; auto.
  clear E. induction F as [|ws ws' gs gs' [L H] F IH]; constructor; auto. split; auto. eapply Forall_impl; [|exact H].
  intros w (A & _ & C & _). auto.
Qed.

(** The maps by level do not get to the workers: there, every level has the ID 0 and the dictionary is empty. *)
Theorem C117_levels_refuted : forall g h c gs gs', built h c -> updateGroups g h c gs = Some gs' ->
  Forall (Forall (fun w => (forall l, fst (getID (cMaps (pwParams w)) l) = 0) /\ pDict (cMaps (pwParams w)) = [])) gs'.
Proof.
  intros g h c gs gs' B E. destruct (groups_spec g h c (built_good _ _ B) gs) as (gs2 & E2 & F). rewrite E in E2. injection E2 as <-.
  clear E. induction F as [|ws ws' gs gs' [L H] F IH]; constructor; auto. eapply Forall_impl; [|exact H].
  intros w (_ & _ & _ & I & D). split; auto. intros l. unfold getID. now rewrite I.
Qed.

Lemma setLevels_find : forall ids levels coeffs p, NoDup ids -> length levels = length ids -> length coeffs = length ids ->
  (forall i, (i < length ids)%nat ->
     zfind (nth i ids 0) (pLevels (setLevelsCoeffs p ids levels coeffs)) = Some (nth i levels [])
     /\ zfind (nth i ids 0) (pCoeffs (setLevelsCoeffs p ids levels coeffs)) = Some (nth i coeffs (Q2Qc 0)))
  /\ (forall x, ~ In x ids -> zfind x (pLevels (setLevelsCoeffs p ids levels coeffs)) = zfind x (pLevels p)
                          /\ zfind x (pCoeffs (setLevelsCoeffs p ids levels coeffs)) = zfind x (pCoeffs p)).
Proof.
  induction ids as [|k ids IH]; intros levels coeffs p ND L1 L2; [split; [intros i Hi; cbn in Hi; lia|auto]|].
  destruct levels as [|l levels]; [discriminate|]. destruct coeffs as [|c coeffs]; [discriminate|].
  apply NoDup_cons_iff in ND as [Nk ND]. cbn [setLevelsCoeffs length] in *. injection L1 as L1. injection L2 as L2.
  destruct (IH levels coeffs (setOne p k l c) ND L1 L2) as [A B]. split.
  - intros [|i] Hi; cbn [nth].
    + destruct (B k Nk) as [-> ->]. cbn [setOne pLevels pCoeffs]. rewrite !zfind_zassign, Z.eqb_refl. auto.
    + apply A. lia.
  - intros x Nx. destruct (B x) as [-> ->]; [intros H; apply Nx; now right|]. cbn [setOne pLevels pCoeffs]. rewrite !zfind_zassign.
    destruct (Z.eqb_spec x k) as [->|]; auto. exfalso. apply Nx. now left.
Qed.

(** From the arguments of the constructors to the workers. *)
Theorem C117_arguments : forall g h a hd ids levels coeffs procs gs h' c,
  NoDup ids -> length levels = length ids -> length coeffs = length ids ->
  (constructTasks h a ids levels coeffs procs = (h', c) /\ hd = repeat true (aDim a) /\ procs <> [0])
  \/ (constructDims h a hd ids levels coeffs = (h', c) /\ procs = []) ->
  exists gs', updateGroups g h' c gs = Some gs' /\ map (@length _) gs' = map (@length _) gs /\
    forall ws w, In ws gs' -> In w ws -> let c' := pwParams w in
      (cDim c' = Z.of_nat (aDim a) /\ cLmin c' = aLmin a /\ cLmax c' = aLmax a /\ cBoundary c' = aBoundary a)
      /\ (forall i, (i < length ids)%nat -> getLevel (cMaps c') (nth i ids 0) = nth i levels []
                                         /\ getCoeff (cMaps c') (nth i ids 0) = nth i coeffs (Q2Qc 0))
      /\ (forall x, ~ In x ids -> getLevel (cMaps c') x = [] /\ getCoeff (cMaps c') x = Q2Qc 0)
      /\ (cHierDims c' = hd /\ cProcs c' = procs /\ cForward c' = aForward a /\ cNumCombi c' = aNumCombi a)
      /\ (cNumGrids c' = aNumGrids a /\ cVariant c' = aVariant a /\ cChunk c' = aChunk a /\ cReduceLmin c' = aReduceLmin a)
      /\ (cReduceLmax c' = aReduceLmax a /\ cHost c' = aHost a /\ cPort c' = aPort a /\ cPG c' = aPG a).
Proof.
  intros g h a hd ids levels coeffs procs gs h' c ND L1 L2 H.
  assert (B : built h' c) by (destruct H as [[H _]|[H _]]; [eapply built_tasks|eapply built_dims]; exact H).
  destruct (groups_spec g h' c (built_good _ _ B) gs) as (gs' & E & F). exists gs'. split; auto. split.
  { clear E. induction F as [|x y gs gs' [L _] F IH]; auto. cbn [map]. now rewrite L, IH. }
  intros ws w Hws Hw. cbv zeta.
  assert (SA : sameAnswers h' c (pwHeap w) (pwParams w)).
  { clear E. induction F as [|x y gs gs' [_ P] F IH]; [destruct Hws|]. destruct Hws as [->|Hws]; auto.
    rewrite Forall_forall in P. destruct (P w Hw) as (_ & _ & SA & _). exact SA. }
  clear E F gs Hws Hw B.
  assert (HC : cMaps c = setLevelsCoeffs noParams ids levels coeffs /\ cHierDims c = hd /\ cProcs c = procs
    /\ (cDim c = Z.of_nat (aDim a) /\ cLmin c = aLmin a /\ cLmax c = aLmax a /\ cBoundary c = aBoundary a)
    /\ (cForward c = aForward a /\ cNumCombi c = aNumCombi a)
    /\ (cNumGrids c = aNumGrids a /\ cVariant c = aVariant a /\ cChunk c = aChunk a /\ cReduceLmin c = aReduceLmin a)
    /\ (cReduceLmax c = aReduceLmax a /\ cHost c = aHost a /\ cPort c = aPort a /\ cPG c = aPG a)).
  { unfold constructTasks, constructDims, makeParams, maybeParallelization in H.
    destruct (allocBases h (defaultKinds (aDim a) (aBoundary a))) as [h1 ps].
    destruct H as [(H & -> & NP)|(H & ->)]; [destruct (list_eq_dec Z.eq_dec procs [0]); [tauto|]|]; injection H as <- <-; repeat split; reflexivity. }
  destruct HC as (EM & EH & EP & (C1 & C2 & C3 & C4) & (C5 & C6) & (C7 & C8 & C9 & C10) & C11 & C12 & C13 & C14).
  destruct SA as ((A1 & A2 & A3 & A4) & A5 & _ & (A8 & A9 & A10 & A11) & (A12 & A13 & A14 & A15) & (A16 & A17) & (A18 & A19 & A20) & _).
  destruct (setLevels_find ids levels coeffs noParams ND L1 L2) as [S1 S2].
  split; [repeat split; congruence|]. split.
  { intros i Hi. destruct (A5 (nth i ids 0)) as [-> ->]. rewrite EM. unfold getLevel, getCoeff. destruct (S1 i Hi) as [-> ->]. auto. }
  split.
  { intros x Hx. destruct (A5 x) as [-> ->]. rewrite EM. unfold getLevel, getCoeff. destruct (S2 x Hx) as [-> ->]. auto. }
  repeat split; congruence.
Qed.

(** * C118 *)
(** The names of the documentation. *)
Definition nameTable : list (string * kind) :=
  [("hat", KHat); ("hat_periodic", KHatPeriodic); ("fullweighting", KFull); ("fullweighting_periodic", KFullPeriodic);
   ("biorthogonal", KBio); ("biorthogonal_periodic", KBioPeriodic)]%string.

Lemma uniform_spec : forall h c k, goodParams h c -> exists h', exists ps x,
  setUniform h c k = Some (h', withBases c ps) /\ derefAll h' ps = Some (repeat (Some k) (Z.to_nat (cDim c)))
  /\ (forall a, deref h' a = if in_dec Nat.eq_dec a (ptrs (cBases c)) then None else deref (h ++ x) a).
Proof.
  intros h c k G. unfold setUniform. destruct (allocBases h (repeat (Some k) (Z.to_nat (cDim c)))) as [h1 ps] eqn:EA.
  destruct (replace_bases h c (repeat (Some k) (Z.to_nat (cDim c))) h1 ps G) as (h' & ES & _ & D & HD); auto; [apply repeat_length|].
  destruct (alloc_spec _ _ _ _ EA) as ((x & ->) & _). exists h', ps, x. auto.
Qed.

(** Each name of the table sets living bases of that kind in all dimensions, changes nothing else, and leaves the bases of
    other objects alone; any other name is refused. *)
Theorem C118_uniform : forall h c s, built h c ->
  (forall k, In (s, k) nameTable -> exists h' c', setUniformNamed h c s = Some (h', c')
     /\ derefAll h' (cBases c') = Some (repeat (Some k) (Z.to_nat (cDim c))) /\ withBases c' (cBases c) = c
     /\ (forall d ks, derefAll h (cBases d) = Some ks -> (forall a, In (Some a) (cBases d) -> ~ In (Some a) (cBases c)) ->
           derefAll h' (cBases d) = Some ks))
  /\ (~ In s (map fst nameTable) -> setUniformNamed h c s = None).
Proof.
  intros h c s B. pose proof (built_good _ _ B) as G. split.
  - intros k I. assert (EK : kindOfName s = Some k).
    { cbn in I. repeat (destruct I as [I|I]; [injection I as <- <-; reflexivity|]). destruct I. }
    unfold setUniformNamed. rewrite EK. destruct (uniform_spec h c k G) as (h' & ps & x & ES & D & HD).
    exists h', (withBases c ps). split; auto. split; [exact D|]. split; [destruct c; reflexivity|].
    intros d ks Dd DJ. rewrite <- (derefAll_app _ _ x _ Dd). apply derefAll_ext. intros a Ha. rewrite HD.
    assert (IN : forall ps, In a (ptrs ps) <-> In (Some a) ps).
    { intros qs. unfold ptrs. rewrite in_flat_map. split.
      - intros ([b|] & Hb & J); [destruct J as [<-|[]]; auto|destruct J].
      - intros J. exists (Some a). split; auto. now left. }
    destruct (in_dec Nat.eq_dec a (ptrs (cBases c))) as [J|]; auto. exfalso. apply (DJ a); now apply IN.
  - intros N. unfold setUniformNamed. replace (kindOfName s) with (@None kind); auto. symmetry. unfold kindOfName.
    repeat match goal with |- context [String.eqb s ?n] => destruct (String.eqb_spec s n) as [->|]; [exfalso; apply N; cbn; tauto|] end.
    reflexivity.
Qed.

(** The bases right after construction: the periodic hat in the periodic dimensions, the hat in the others. *)
Theorem C118_constructed : forall h a h' c,
  (exists ids levels coeffs procs, constructTasks h a ids levels coeffs procs = (h', c))
  \/ (exists procs, constructWorkers h a procs = (h', c))
  \/ (exists hd ids levels coeffs, constructDims h a hd ids levels coeffs = (h', c)) ->
  exists ks, derefAll h' (cBases c) = Some ks /\ length ks = aDim a /\
    forall d, (d < aDim a)%nat -> (nth d (aBoundary a) 0 = 1 -> nth_error ks d = Some (Some KHatPeriodic))
                               /\ (nth d (aBoundary a) 0 <> 1 -> nth_error ks d = Some (Some KHat)).
Proof.
  intros h a h' c H.
  assert (D : derefAll h' (cBases c) = Some (defaultKinds (aDim a) (aBoundary a))).
  { unfold constructTasks, constructWorkers, constructDims, makeParams, maybeParallelization in H.
    destruct (allocBases h (defaultKinds (aDim a) (aBoundary a))) as [h1 ps] eqn:EA.
    destruct (alloc_spec _ _ _ _ EA) as (_ & _ & D & _).
    destruct H as [(ids & levels & coeffs & procs & H)|[(procs & H)|(hd & ids & levels & coeffs & H)]];
      try destruct (list_eq_dec Z.eq_dec procs [0]); injection H as <- <-; exact D. }
  exists (defaultKinds (aDim a) (aBoundary a)). split; auto. unfold defaultKinds. rewrite map_length, seq_length. split; auto.
  intros d Ld. rewrite nth_error_map, (nth_error_nth' _ 0%nat) by now rewrite seq_length. rewrite seq_nth by auto. cbn [option_map Nat.add].
  split; intros E; destruct (Z.eqb_spec (nth d (aBoundary a) 0) 1); auto; congruence.
Qed.

(** The members are copied by their pointers, and the old bases are deleted when new ones are set: after that the bases of
    a copy made before are dangling, it can neither be used nor be sent. *)
Theorem C118_copy_refuted : forall h c s k, built h c -> In (s, k) nameTable -> (exists a, In (Some a) (cBases c)) ->
  exists h' c', setUniformNamed h c s = Some (h', c') /\
    (let copy := c in derefAll h' (cBases copy) = None /\ saveParams h' copy = None /\ (forall ps, setBases h' copy ps = None)).
Proof.
  intros h c s k B I (a & Ha). pose proof (built_good _ _ B) as G.
  assert (EK : kindOfName s = Some k).
  { cbn in I. repeat (destruct I as [I|I]; [injection I as <- <-; reflexivity|]). destruct I. }
  unfold setUniformNamed. rewrite EK. destruct (uniform_spec h c k G) as (h' & ps & x & ES & D & HD).
  exists h', (withBases c ps). split; auto. cbv zeta.
  assert (Hp : In a (ptrs (cBases c))) by (unfold ptrs; apply in_flat_map; exists (Some a); split; auto; now left).
  assert (DN : derefAll h' (cBases c) = None).
  { destruct (derefAll h' (cBases c)) eqn:E; auto. exfalso.
    assert (NE : derefAll h' (cBases c) <> None) by congruence. apply (proj1 (derefAll_live _ _) NE a Hp).
    rewrite HD. destruct (in_dec Nat.eq_dec a (ptrs (cBases c))); tauto. }
  split; auto. split; [unfold saveParams; now rewrite DN|]. intros qs. unfold setBases.
  assert (DD : deleteAll h' (cBases c) = None).
  { assert (ALL : forall b, In b (ptrs (cBases c)) -> deref h' b = None).
    { intros b Hb. rewrite HD. destruct (in_dec Nat.eq_dec b (ptrs (cBases c))); tauto. }
    clear - ALL Hp. induction (cBases c) as [|[b|] qs IH]; cbn [deleteAll]; [destruct Hp| |].
    - rewrite (ALL b); auto. now left.
    - apply IH; auto. }
  now rewrite DD.
Qed.

(** * Examples *)
Definition exArgs : ctorArgs := CtorArgs 2 [1; 1] [3; 3] [2; 1] 10 1 2 [0; 0] [1; 1] 64 true "host" 99 1.
Definition exBuilt : heap * cparams :=
  constructTasks [Some KBio] exArgs [0; 1; 2] [[1; 3]; [2; 2]; [1; 2]] [Q2Qc 1; Q2Qc 1; Q2Qc (-1)] [2; 1].
Definition exOld : paramWorker := ParamWorker [None] (blank 7) false.

(** Two groups of two and one workers: the worker that did not receive the archive from the manager has the second
    coefficient, the fourth member and living bases; the ID of level (2,2) is 1 at the manager and 0 at the workers. *)
Example C117_ex : built (fst exBuilt) (snd exBuilt) /\ NoDup [0; 1; 2] /\ [2; 1] <> [0] /\ fst (getID (cMaps (snd exBuilt)) [2; 2]) = 1 /\
  match updateGroups 5 (fst exBuilt) (snd exBuilt) [[exOld; exOld]; [exOld]] with
  | Some [[m; w]; [m2]] =>
      getCoeff (cMaps (pwParams w)) 2 = Q2Qc (-1) /\ getLevel (cMaps (pwParams w)) 1 = [2; 2] /\ cBoundary (pwParams w) = [2; 1]
      /\ cProcs (pwParams w) = [2; 1] /\ derefAll (pwHeap w) (cBases (pwParams w)) = Some [Some KHat; Some KHatPeriodic]
      /\ fst (getID (cMaps (pwParams w)) [2; 2]) = 0
  | _ => False
  end.
Proof.
  split; [eapply built_tasks; unfold exBuilt; apply surjective_pairing|].
  split; [repeat constructor; cbn; lia|]. split; [discriminate|]. split; [reflexivity|]. vm_compute. repeat split; reflexivity.
Qed.

(** Setting the bases by name, and the dangling copy. *)
Example C118_ex : (exists a, In (Some a) (cBases (snd exBuilt))) /\
  match setUniformNamed (fst exBuilt) (snd exBuilt) "fullweighting" with
  | Some (h, c) => derefAll h (cBases c) = Some [Some KFull; Some KFull] /\ derefAll h (cBases (snd exBuilt)) = None /\ deref h 0 = Some KBio
  | None => False
  end.
Proof. split; [exists 1%nat; vm_compute; now left|]. vm_compute. repeat split; reflexivity. Qed.

Print Assumptions C117_all_workers_partial.
Print Assumptions C117_levels_refuted.
Print Assumptions C117_arguments.
Print Assumptions C118_uniform.
Print Assumptions C118_constructed.
Print Assumptions C118_copy_refuted.
