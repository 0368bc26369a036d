(** The combination of several systems as a whole. *)
From Verif Require Import Base TensorModel Level1dModel LevelSetsModel LevelSetsProofs SubspaceModel CombiSchemeModel Hier1dModel Hier1dProofs HierMassProofs
  DofProofs SparseGridModel SparseGridProofs CombineModel SparseTransferProofs SparseGridProps ReduceModel ReduceProofs VoteProofs SubspaceReduceProofs
  CombiStepModel CombiStepProofs CombiInitProofs FileModel FileProps ExchangeModel ExchangeProps WideModel WideProofs.
From Coq Require Import QArith Qcanon Permutation.
Open Scope Z_scope.
Ltac Zify.zify_post_hook ::= idtac.

(** ** Loops and lists *)
Lemma readLoop_total : forall (S : Type) q (read : nat -> S -> option S) (all : list nat) (I : list nat -> S -> Prop) T,
  (forall done i s, I done s -> In i all -> exists s', read i s = Some s' /\ I (done ++ [i]) s') ->
  (forall t i, (T <= t)%nat -> In i all -> q t i = true) ->
  forall fuel t indices done s, NoDup indices -> (forall i, In i indices -> In i all) -> I done s -> (T - t + length indices <= fuel)%nat ->
  exists order s', readLoop q read fuel t indices done s = Some (done ++ order, s') /\ Permutation order indices /\ I (done ++ order) s'.
Proof.
  intros S q read all I T HR HT. induction fuel as [|fuel IH]; intros t indices done s ND HA HI HL; destruct indices as [|i0 rest].
  - exists [], s. rewrite app_nil_r. auto.
  - cbn [length] in HL. lia.
  - exists [], s. rewrite app_nil_r. auto.
  - cbn [readLoop]. set (l := i0 :: rest) in *. assert (LL : (1 <= length l)%nat) by (cbn; lia). assert (I0 : nth 0 l 0%nat = i0) by reflexivity. assert (IN0 : In i0 l) by now left. clearbody l.
    destruct (scanTokens q t l) as [t' [i|]] eqn:ES.
    + destruct (scan_some _ _ _ _ _ ES) as [Hi Ht]. destruct (without_perm i l ND Hi) as [P1 N1]. destruct (HR done i s HI (HA i Hi)) as (s' & -> & HI').
      destruct (IH t' (without i l) (done ++ [i]) s' N1) as (order & s2 & E & P2 & I2); auto.
      * intros j Hj. apply HA. apply filter_In in Hj. tauto.
      * apply Permutation_length in P1. cbn [length] in P1. lia.
      * exists (i :: order), s2. rewrite <- app_assoc in E, I2. split; [exact E|]. split; auto. eapply perm_trans; [apply perm_skip, P2|]. now apply Permutation_sym.
    + destruct (scan_none _ _ _ _ ES) as [-> HQ]. specialize (HQ 0%nat ltac:(lia)). rewrite Nat.add_0_r, I0 in HQ.
      destruct (Nat.le_gt_cases T t) as [H|H]; [rewrite HT in HQ by auto; discriminate|]. apply IH; auto. lia.
Qed.

Lemma others_perm : forall {A} s (l : list A) x, nth_error l s = Some x -> Permutation l (x :: others s l).
Proof.
  intros A s l x E. destruct (nth_error_split l s E) as (l1 & l2 & -> & <-). unfold others.
  rewrite firstn_app, Nat.sub_diag, firstn_all, firstn_O, app_nil_r. rewrite skipn_app. rewrite skipn_all2 by lia. replace (S (length l1) - length l1)%nat with 1%nat by lia. cbn [skipn app].
  apply Permutation_sym, Permutation_middle.
Qed.
Lemma others_map : forall {A B} (f : A -> B) s l, others s (map f l) = map f (others s l).
Proof. intros. unfold others. now rewrite map_app, firstn_map, skipn_map. Qed.
Lemma others_length : forall {A} s (l : list A), (s < length l)%nat -> length (others s l) = (length l - 1)%nat.
Proof. intros A s l H. unfold others. rewrite app_length, firstn_length, skipn_length. lia. Qed.
Lemma others_In : forall {A} s (l : list A) x, In x (others s l) -> exists s', s' <> s /\ nth_error l s' = Some x.
Proof.
  intros A s l x H. unfold others in H. apply in_app_iff in H. destruct H as [H|H]; apply In_nth_error in H; destruct H as (k & E).
  - assert (K : (k < s)%nat) by (assert (k < length (firstn s l))%nat by (apply nth_error_Some; congruence); rewrite firstn_length in *; lia).
    exists k. split; [lia|]. rewrite <- E. rewrite <- (firstn_skipn s l) at 1. rewrite nth_error_app1; auto. apply nth_error_Some. congruence.
  - exists (S s + k)%nat. split; [lia|]. rewrite <- E. destruct (le_lt_dec (S s) (length l)) as [L|L].
    + rewrite <- (firstn_skipn (S s) l) at 1. rewrite nth_error_app2; rewrite firstn_length; [f_equal; lia|lia].
    + rewrite skipn_all2 in E by lia. now destruct k.
Qed.
Lemma Permutation_qsum : forall l l', Permutation l l' -> qsum l = qsum l'.
Proof.
  intros l l' P. induction P; auto.
  - change (qsum (x :: l)) with (x + qsum l)%Qc. change (qsum (x :: l')) with (x + qsum l')%Qc. now rewrite IHP.
  - change (qsum (y :: x :: l)) with (y + (x + qsum l))%Qc. change (qsum (x :: y :: l)) with (x + (y + qsum l))%Qc. ring.
  - congruence.
Qed.
Lemma map_nth_seq : forall {A} (l : list A) d, map (fun i => nth i l d) (seq 0 (length l)) = l.
Proof.
  intros A l d. apply nth_ext with (d := d) (d' := d); [now rewrite map_length, seq_length|]. intros i Hi. rewrite map_length, seq_length in Hi. now rewrite nth_map_seq.
Qed.
Lemma weightedSum_concat : forall ls l j, weightedSum (concat ls) l j = qsum (map (fun t => weightedSum t l j) ls).
Proof.
  induction ls as [|t ls IH]; intros l j; [reflexivity|]. cbn [concat map]. change (qsum (?a :: ?b)) with (a + qsum b)%Qc. rewrite <- IH. unfold weightedSum. now rewrite map_app, qsum_app.
Qed.

Section Wide.
Variables (dim : nat) (rest : list (list Z)).
Let levels := repeat 1 dim :: rest.
Hypothesis HL : sortedLevels dim levels.
Hypothesis HP : Forall (Forall (Z.le 1)) levels.
Let n := Z.of_nat (length levels).
Let lvl (i : Z) := nth (Z.to_nat i) levels [].
(** For each process: the number of points of a subspace and the sizes of the extra sparse grid. *)
Variables (np : nat) (cnt : nat -> list Z -> Z) (E : nat -> list Z).
Hypothesis Hcnt : forall p q, 0 <= cnt p q < 2 ^ 32.

Definition sysInv (out : nat) (ps : list Proc) : Prop :=
  length ps = np /\ forall p pr, nth_error ps p = Some pr -> procInv dim rest (cnt p) out (E p) pr.
Definition sysMid (out : nat) (ps0 ps : list Proc) (X : nat -> Z -> Z -> Qc) : Prop :=
  length ps = np /\ forall p pr0 pr, nth_error ps0 p = Some pr0 -> nth_error ps p = Some pr -> procMid dim rest out (E p) (pGroups pr0) pr (X p).
Definition procTasks (ps : list Proc) (p : nat) : list Comp := match nth_error ps p with Some pr => allTasks (pGroups pr) | None => [] end.

Lemma procMid_ext : forall out s gs0 pr X X', procMid dim rest out s gs0 pr X -> (forall i j, X i j = X' i j) -> procMid dim rest out s gs0 pr X'.
Proof. intros out s gs0 pr X X' (A & B & C & D & F) H. split; auto. split; auto. split; auto. split; intros; rewrite <- H; auto. Qed.
Lemma sysMid_ext : forall out ps0 ps X X', sysMid out ps0 ps X -> (forall p i j, X p i j = X' p i j) -> sysMid out ps0 ps X'.
Proof. intros out ps0 ps X X' (A & B) H. split; auto. intros p pr0 pr E0 E1. eapply procMid_ext; [now apply (B p pr0)|auto]. Qed.

Definition wlen (w : list (list Qc)) : Prop := length w = np /\ forall p, (p < np)%nat -> length (nth p w []) = Z.to_nat (zsum (E p)).
Lemma wlen_map : forall w w', wlen w -> wlen w' -> map (@length Qc) w = map (@length Qc) w'.
Proof.
  intros w w' [L F] [L' F']. apply nth_ext with (d := length (@nil Qc)) (d' := length (@nil Qc)); [now rewrite !map_length, L, L'|]. intros p Hp. rewrite map_length, L in Hp. rewrite !map_nth. now rewrite F, F'.
Qed.
Lemma mid_wlen : forall out ps0 ps X, length ps0 = np -> sysMid out ps0 ps X -> wlen (map (fun p => rawValues (pExtra p)) ps).
Proof.
  intros out ps0 ps X L0 (L & F). split; [now rewrite map_length|]. intros p Hp. destruct (nth_error_lt ps p ltac:(lia)) as (pr & Ep). destruct (nth_error_lt ps0 p ltac:(lia)) as (pr0 & Ep0).
  rewrite (nth_error_nth (map (fun p => rawValues (pExtra p)) ps) p (x := rawValues (pExtra pr))); [|rewrite nth_error_map'; now rewrite Ep].
  destruct (F p pr0 pr Ep0 Ep) as (_ & _ & FE & _). apply (rawValues_length dim rest (cnt p) (Hcnt p) (E p)); auto.
Qed.
Lemma mid_raw : forall out ps0 ps X p i j, length ps0 = np -> sysMid out ps0 ps X -> (p < np)%nat -> 0 <= i < n -> 0 <= j < nth (Z.to_nat i) (E p) 0 ->
  nth (Z.to_nat (offS dim rest (E p) i + j)) (nth p (map (fun p => rawValues (pExtra p)) ps) []) 0%Qc = X p i j.
Proof.
  intros out ps0 ps X p i j L0 (L & F) Hp Hi Hj. destruct (nth_error_lt ps p ltac:(lia)) as (pr & Ep). destruct (nth_error_lt ps0 p ltac:(lia)) as (pr0 & Ep0).
  rewrite (nth_error_nth (map (fun p => rawValues (pExtra p)) ps) p (x := rawValues (pExtra pr))); [|rewrite nth_error_map'; now rewrite Ep].
  destruct (F p pr0 pr Ep0 Ep) as (_ & _ & FE & _ & V). destruct (full_ptr dim rest (E p) _ i FE Hi) as (_ & P0 & P1). rewrite (rawValues_nth dim rest (cnt p) (Hcnt p) (E p)) by (auto; lia). now apply V.
Qed.

(** Shares of memory and file: small enough, the same number of reads. *)
Variable fuel : nat.
Definition readsOk (buffer : nat) : Prop := (1 <= buffer)%nat /\ (forall p, (p < np)%nat -> zsum (E p) < 2 ^ 31) /\
  (forall p, (p < np)%nat -> (numReads (Z.to_nat (zsum (E p))) buffer <= fuel)%nat) /\
  (forall p p', (p < np)%nat -> (p' < np)%nat -> numReads (Z.to_nat (zsum (E p))) buffer = numReads (Z.to_nat (zsum (E p'))) buffer).

Lemma wlen_In : forall w v, wlen w -> In v w -> exists p, (p < np)%nat /\ length v = Z.to_nat (zsum (E p)).
Proof. intros w v [L F] Hv. apply (In_nth _ _ []) in Hv. destruct Hv as (p & Hp & <-). exists p. rewrite L in Hp. auto. Qed.
Lemma wlen_small : forall w buffer, readsOk buffer -> wlen w -> smallData w.
Proof.
  intros w buffer (_ & S & _) W. apply Forall_forall. intros v Hv. destruct (wlen_In w v W Hv) as (p & Hp & ->). specialize (S p Hp). destruct (Z_le_gt_dec 0 (zsum (E p))); lia.
Qed.

Lemma readFile_spec : forall out buffer written ps0 ps X, readsOk buffer -> sysInv out ps0 -> wlen written -> sysMid out ps0 ps X ->
  exists ps', readFile fuel buffer out (Some (concat written)) ps = Some ps' /\
    sysMid out ps0 ps' (fun p i j => if nth (Z.to_nat i) (E p) 0 =? 0 then X p i j else (nth (Z.to_nat (offS dim rest (E p) i + j)) (nth p written []) 0 + X p i j)%Qc).
Proof.
  intros out buffer written ps0 ps X RO [L0 I0] WW M. pose proof M as [L F]. pose proof (mid_wlen out ps0 ps X L0 M) as WR. unfold readFile.
  pose proof RO as (B1 & S1 & N1 & N2).
  rewrite (readReduce_eq 0%Qc); auto; [|now apply (wlen_small _ buffer)|now apply wlen_map|].
  2:{ intros v Hv. destruct (wlen_In _ v WR Hv) as (p & Hp & ->). auto. }
  rewrite (proj2 (sameReadsb_spec _ _)).
  2:{ intros v w Hv Hw. destruct (wlen_In _ v WR Hv) as (p & Hp & ->). destruct (wlen_In _ w WR Hw) as (p' & Hp' & ->). auto. }
  eexists. split; [reflexivity|]. set (raw := map (fun p => rawValues (pExtra p)) ps) in *.
  assert (LM : length (map2 (map2 Qcplus) written raw) = np) by (rewrite map2_length; [apply WW|destruct WW as [-> _], WR as [-> _]; reflexivity]).
  split; [rewrite map_length, combine_length, LM, L; lia|].
  intros p pr0 pr Ep0 Ep'. rewrite nth_error_map' in Ep'. destruct (nth_error (combine (map2 (map2 Qcplus) written raw) ps) p) as [[v pr1]|] eqn:Ec; [|discriminate]. injection Ep' as <-.
  assert (Hp : (p < np)%nat) by (rewrite <- L0; apply nth_error_Some; congruence).
  destruct (nth_error_lt ps p ltac:(lia)) as (prx & Epx).
  assert (EC : nth_error (combine (map2 (map2 Qcplus) written raw) ps) p = Some (nth p (map2 (map2 Qcplus) written raw) [], prx)).
  { rewrite (nth_error_nth' _ ([], prx)) by (rewrite combine_length, LM, L; lia). rewrite combine_nth by lia. now rewrite (nth_error_nth ps p _ Epx). }
  rewrite EC in Ec. injection Ec as <- <-. cbn [fst snd].
  rewrite (map2_nth _ _ _ _ written raw p [] [] []) by (rewrite ?(proj1 WW), ?(proj1 WR); lia).
  unfold raw at 1 2. rewrite (nth_error_nth (map (fun p => rawValues (pExtra p)) ps) p (x := rawValues (pExtra prx))) by (rewrite nth_error_map'; now rewrite Epx).
  change (procMid dim rest out (E p) (pGroups pr0) (readProc out (map2 Qcplus (nth p written []) (rawValues (pExtra prx))) prx)
    (fun i j => if nth (Z.to_nat i) (E p) 0 =? 0 then X p i j else (nth (Z.to_nat (offS dim rest (E p) i + j)) (nth p written []) 0 + X p i j)%Qc)).
  destruct (I0 p pr0 Ep0) as (G & SS & HO & DE & SE & EE & TT). apply (readProc_mid dim rest (cnt p) (Hcnt p)); auto.
  - intros g0 i Eg Hi. apply EE; auto. now apply nth_error_In in Eg.
  - now apply WW.
Qed.

(** All files. *)
Lemma readFiles_spec : forall q T out buffer files ws ps0 ps X, readsOk buffer -> sysInv out ps0 -> (forall w, In w ws -> wlen w) -> files = map (fun w => Some (concat w)) ws ->
  (forall t i, (T <= t)%nat -> (i < length ws)%nat -> q t i = true) -> (T + length ws <= fuel)%nat -> sysMid out ps0 ps X ->
  exists order ps', readFiles q fuel buffer out files ps = Some (order, ps') /\ Permutation order (seq 0 (length ws)) /\
    sysMid out ps0 ps' (fun p i j => if nth (Z.to_nat i) (E p) 0 =? 0 then X p i j else (X p i j + qsum (map (fun w => nth (Z.to_nat (offS dim rest (E p) i + j)) (nth p w []) 0%Qc) ws))%Qc).
Proof.
  intros q T out buffer files ws ps0 ps X RO I0 WW -> HT HF M. unfold readFiles. rewrite map_length.
  set (V := fun k p i j => nth (Z.to_nat (offS dim rest (E p) i + j)) (nth p (nth k ws []) []) 0%Qc).
  set (I := fun done s => sysMid out ps0 s (fun p i j => if nth (Z.to_nat i) (E p) 0 =? 0 then X p i j else (X p i j + qsum (map (fun k => V k p i j) done))%Qc)).
  destruct (readLoop_total _ q (fun i => readFile fuel buffer out (nth i (map (fun w => Some (concat w)) ws) None)) (seq 0 (length ws)) I T) with (fuel := fuel) (t := 0%nat) (indices := seq 0 (length ws)) (done := @nil nat) (s := ps)
    as (order & ps' & EL & PO & IL).
  - intros done i s Is Hi. apply in_seq in Hi.
    assert (EN : nth i (map (fun w => Some (concat w)) ws) None = Some (concat (nth i ws []))).
    { rewrite (nth_indep _ None (Some (concat (@nil (list Qc))))) by (rewrite map_length; lia). apply (map_nth (fun w => Some (concat w))). }
    destruct (readFile_spec out buffer (nth i ws []) ps0 s _ RO I0 (WW _ (nth_In _ _ (proj2 Hi))) Is) as (s' & Es' & Ms'). cbv beta. rewrite EN. exists s'. split; [exact Es'|].
    eapply sysMid_ext; [exact Ms'|]. intros p i' j. cbv beta. destruct (nth (Z.to_nat i') (E p) 0 =? 0); auto. rewrite map_app, qsum_app. cbn [map]. change (qsum [?a]) with (a + 0)%Qc. fold (V i p i' j). ring.
  - intros t i Ht Hi. apply in_seq in Hi. apply HT; auto. lia.
  - apply seq_NoDup.
  - auto.
  - eapply sysMid_ext; [exact M|]. intros p i j. cbv beta. cbn [map]. change (qsum []) with 0%Qc. destruct (nth (Z.to_nat i) (E p) 0 =? 0); auto. ring.
  - rewrite seq_length. lia.
  - exists order, ps'. split; [exact EL|]. split; auto. eapply sysMid_ext; [exact IL|]. intros p i j. cbv beta. destruct (nth (Z.to_nat i) (E p) 0 =? 0); auto. f_equal.
    cbn [app]. rewrite (Permutation_qsum _ (map (fun k => V k p i j) (seq 0 (length ws)))) by now apply Permutation_map.
    unfold V. rewrite <- (map_nth_seq ws []) at 2. rewrite map_map. reflexivity.
Qed.

(** What a combination needs from the systems. *)
Definition confOk (old : option (list Qc)) (systems : nat) (c : Conf) : Prop :=
  0 < fChunk c < 2 ^ 31 /\ readsOk (fBuffer c) /\ Permutation (fOrder c) (seq 0 np) /\
  (length (openToWrite old false) <= length (concat (map (fun p => repeat 0%Z (Z.to_nat (zsum (E p)))) (seq 0 np))))%nat /\
  exists T, (forall t i, (T <= t)%nat -> (i < systems - 1)%nat -> fQuery c t i = true) /\ (T + (systems - 1) <= fuel)%nat.

(** A subspace without a size in the extra sparse grid is held by one system only. *)
Definition sharedOk (ws : list (list Proc)) : Prop := forall s s' ps ps' p i c c', nth_error ws s = Some ps -> nth_error ws s' = Some ps' -> (p < np)%nat -> 0 <= i < n ->
  In c (procTasks ps p) -> In c' (procTasks ps' p) -> containsL c (lvl i) -> containsL c' (lvl i) -> s <> s' -> 0 < cnt p (lvl i) -> nth (Z.to_nat i) (E p) 0 <> 0.

Lemma wlen_concat : forall w, wlen w -> length (concat w) = length (concat (map (fun p => repeat 0%Z (Z.to_nat (zsum (E p)))) (seq 0 np))).
Proof.
  intros w [L F]. rewrite <- (map_nth_seq w []) at 1. rewrite L. assert (H : forall l, (forall p, In p l -> (p < np)%nat) ->
     length (concat (map (fun i => nth i w []) l)) = length (concat (map (fun p => repeat 0%Z (Z.to_nat (zsum (E p)))) l))).
  { induction l as [|p l IH]; intros Hl; [reflexivity|]. cbn [map concat]. rewrite !app_length, repeat_length. rewrite IH by (intros x Hx; apply Hl; now right). rewrite F by (apply Hl; now left). reflexivity. }
  apply H. intros p Hp. apply in_seq in Hp. lia.
Qed.

Lemma combineWide_spec : forall esz conf olds ws, (forall s ps, nth_error ws s = Some ps -> sysInv (fOut (conf s)) ps /\ confOk (olds s) (length ws) (conf s)) -> sharedOk ws ->
  exists ws', combineWide esz levels conf fuel olds ws = Some ws' /\ length ws' = length ws /\
    forall s ps, nth_error ws s = Some ps -> exists ps', nth_error ws' s = Some ps' /\ sysInv (fOut (conf s)) ps' /\
      forall p pr, nth_error ps p = Some pr -> exists pr', nth_error ps' p = Some pr' /\
        Forall2 (fun g g' => stepped (weightedSum (concat (map (fun ps => procTasks ps p) ws))) (fun l => In l levels) g g') (pGroups pr) (pGroups pr').
Proof.
  intros esz conf olds ws HI HS. unfold combineWide.
  destruct (mapO_nth (fun s (sw : nat * list Proc) ps1 => forall ps, nth_error ws s = Some ps -> sysMid (fOut (conf s)) ps ps1 (fun p i j => weightedSum (procTasks ps p) (lvl i) j))
     (fun sw => mapO (localReduce esz (fChunk (conf (fst sw))) (fOut (conf (fst sw))) levels) (snd sw)) (indexed ws)) as (ws1 & E1 & L1 & F1).
  { intros s [s' ps] Es. rewrite indexed_nth in Es. destruct (nth_error ws s) as [psx|] eqn:Ew; [|discriminate]. injection Es as <- <-. cbn [fst snd]. destruct (HI s psx Ew) as [[LI I] (C1 & _)].
    destruct (mapO_nth (fun p pr pr1 => procMid dim rest (fOut (conf s)) (E p) (pGroups pr) pr1 (fun i j => weightedSum (allTasks (pGroups pr)) (lvl i) j))
       (localReduce esz (fChunk (conf s)) (fOut (conf s)) levels) psx) as (ps1 & Ep & Lp & Fp).
    - intros p pr Epr. apply (localReduce_spec dim rest HL HP (cnt p) (Hcnt p)); auto.
    - exists ps1. split; auto. intros ps Eps. injection Eps as <-. split; [lia|]. intros p pr0 pr Epr0 Epr. destruct (Fp p pr0 Epr0) as (b & Eb & _ & M). rewrite Epr in Eb. injection Eb as <-.
      unfold procTasks. rewrite Epr0. exact M. }
  rewrite E1. rewrite indexed_length in L1.
  assert (F1' : forall s ps, nth_error ws s = Some ps -> exists ps1, nth_error ws1 s = Some ps1 /\ sysMid (fOut (conf s)) ps ps1 (fun p i j => weightedSum (procTasks ps p) (lvl i) j)).
  { intros s ps Es. destruct (F1 s (s, ps)) as (ps1 & A & _ & B); [rewrite indexed_nth; now rewrite Es|]. exists ps1. split; auto. }
  set (raws := map (fun ps => map (fun p => rawValues (pExtra p)) ps) ws1).
  assert (EF : map (fun sw => Some (writeValues 0%Qc (olds (fst sw)) false (map (fun p => rawValues (pExtra p)) (snd sw)) (fOrder (conf (fst sw))))) (indexed ws1) = map (fun w => Some (concat w)) raws).
  { unfold raws. rewrite map_map. apply nth_ext with (d := None) (d' := None); [now rewrite !map_length, indexed_length|]. intros s Hs. rewrite map_length, indexed_length in Hs.
    destruct (nth_error_lt ws1 s Hs) as (ps1 & Es1). destruct (nth_error_lt ws s ltac:(lia)) as (ps & Es).
    rewrite !(nth_error_nth (map _ _) s (x := Some (concat (map (fun p => rawValues (pExtra p)) ps1)))); auto; rewrite nth_error_map'.
    - now rewrite Es1.
    - rewrite indexed_nth, Es1. cbn [fst snd]. destruct (F1' s ps Es) as (psx & Ex & M). rewrite Es1 in Ex. injection Ex as <-. destruct (HI s ps Es) as [[LI I] (_ & RO & PO & LO & _)].
      pose proof (mid_wlen _ ps ps1 _ LI M) as WL. do 2 f_equal. apply C37_file_contents; [now apply (wlen_small _ (fBuffer (conf s)))|rewrite map_length, (proj1 M); exact PO|]. rewrite (wlen_concat _ WL). exact LO. }
  rewrite EF.
  assert (RW : forall w, In w raws -> wlen w).
  { intros w Hw. apply in_map_iff in Hw. destruct Hw as (ps1 & <- & Hp). apply In_nth_error in Hp. destruct Hp as (s & Es1).
    destruct (nth_error_lt ws s) as (ps & Es); [rewrite <- L1; apply nth_error_Some; congruence|]. destruct (F1' s ps Es) as (psx & Ex & M). rewrite Es1 in Ex. injection Ex as <-. destruct (HI s ps Es) as [[LI _] _].
    now apply (mid_wlen (fOut (conf s)) ps ps1 _ LI M). }
  destruct (mapO_nth (fun s (sw : nat * list Proc) ps' => forall ps, nth_error ws s = Some ps -> sysInv (fOut (conf s)) ps' /\
      forall p pr, nth_error ps p = Some pr -> exists pr', nth_error ps' p = Some pr' /\
        Forall2 (fun g g' => stepped (weightedSum (concat (map (fun ps => procTasks ps p) ws))) (fun l => In l levels) g g') (pGroups pr) (pGroups pr'))
     (fun sw => match readFiles (fQuery (conf (fst sw))) fuel (fBuffer (conf (fst sw))) (fOut (conf (fst sw))) (others (fst sw) (map (fun w => Some (concat w)) raws)) (snd sw) with
                | None => None
                | Some (_, ps) => mapO (finishProc (fOut (conf (fst sw))) levels) ps
                end) (indexed ws1)) as (ws' & E' & L' & F').
  { intros s [sx ps1] Es1. rewrite indexed_nth in Es1. destruct (nth_error ws1 s) as [psx|] eqn:Ew1; [|discriminate]. injection Es1 as <- <-. cbn [fst snd].
    assert (Hs : (s < length ws)%nat) by (rewrite <- L1; apply nth_error_Some; congruence). destruct (nth_error_lt ws s Hs) as (ps & Es). destruct (F1' s ps Es) as (psy & Ey & M). rewrite Ew1 in Ey. injection Ey as <-.
    destruct (HI s ps Es) as [SI (_ & RO & _ & _ & T & HT & HF)]. pose proof SI as [LI I].
    assert (LR : length (others s raws) = (length ws - 1)%nat) by (rewrite others_length; unfold raws; rewrite map_length; lia).
    destruct (readFiles_spec (fQuery (conf s)) T (fOut (conf s)) (fBuffer (conf s)) (others s (map (fun w => Some (concat w)) raws)) (others s raws) ps psx (fun p i j => weightedSum (procTasks ps p) (lvl i) j) RO SI) as (order & ps2 & Er & _ & M2).
    - intros w Hw. apply others_In in Hw. destruct Hw as (s' & _ & Hw). apply RW. now apply nth_error_In in Hw.
    - apply others_map.
    - rewrite LR. exact HT.
    - rewrite LR. exact HF.
    - exact M.
    - rewrite Er. pose proof M2 as [L2 F2].
      destruct (mapO_nth (fun p pr2 pr' => forall pr0, nth_error ps p = Some pr0 -> procInv dim rest (cnt p) (fOut (conf s)) (E p) pr' /\
          Forall2 (fun g g' => stepped (weightedSum (concat (map (fun ps => procTasks ps p) ws))) (fun l => In l levels) g g') (pGroups pr0) (pGroups pr'))
         (finishProc (fOut (conf s)) levels) ps2) as (ps' & Ep' & Lp' & Fp').
      + intros p pr2 Epr2. assert (Hp : (p < np)%nat) by (rewrite <- L2; apply nth_error_Some; congruence). destruct (nth_error_lt ps p ltac:(lia)) as (pr0 & Ep0).
        pose proof (I p pr0 Ep0) as PI. pose proof PI as (G & SS & HO & DE & SE & EE & TT).
        destruct (finishProc_spec dim rest HL (cnt p) (Hcnt p) (fOut (conf s)) (E p) pr0 pr2 _ (weightedSum (concat (map (fun ps => procTasks ps p) ws))) PI (F2 p pr0 pr2 Ep0 Epr2)) as (pr' & Ef & If & Sf).
        * intros g c i j Hg Hc Hi Hcl Hj. assert (Hj' : 0 <= j < cnt p (lvl i)) by exact Hj. fold levels in Hcl, Hj |- *. fold lvl in Hcl, Hj |- *. cbv beta. rewrite weightedSum_concat, map_map. change (nth (Z.to_nat i) levels []) with (lvl i).
          rewrite (Permutation_qsum _ _ (Permutation_map (fun ps => weightedSum (procTasks ps p) (lvl i) j) (others_perm s ws ps Es))). cbn [map]. change (qsum (?a :: ?b)) with (a + qsum b)%Qc.
          rewrite Forall_forall in G. destruct (G g Hg) as (TK & _ & SO). pose proof (SO c i Hc Hi Hcl) as SC. cbv beta in SC. change (dataSize (gDsg g) i = cnt p (lvl i)) in SC.
          assert (CT : In c (procTasks ps p)) by (unfold procTasks; rewrite Ep0; unfold allTasks; apply in_flat_map; eauto).
          destruct (Z.eqb_spec (nth (Z.to_nat i) (E p) 0) 0) as [Z0|Z0].
          -- rewrite (qsum_zero (fun ps => weightedSum (procTasks ps p) (lvl i) j)); [ring|]. intros psz Hz. apply others_In in Hz. destruct Hz as (s' & Ns & Ez). apply (notContained_zero dim rest HL HP); auto.
             ++ destruct (HI s' psz Ez) as [[_ Iz] _]. unfold procTasks. destruct (nth_error psz p) as [prz|] eqn:Epz; [|constructor]. destruct (Iz p prz Epz) as (Gz & _).
                apply Forall_forall. intros c' Hc'. unfold allTasks in Hc'. apply in_flat_map in Hc'. destruct Hc' as (gz & Hgz & Hc'). rewrite Forall_forall in Gz. destruct (Gz gz Hgz) as (TKz & _).
                unfold tasksOk in TKz. rewrite Forall_forall in TKz. now apply TKz.
             ++ intros c' Hc' X. apply (HS s s' ps psz p i c c'); auto. lia.
          -- f_equal. destruct (EE g i Hg Hi) as [Z1|Z1]; [lia|]. rewrite SC in Z1.
             unfold raws. rewrite others_map, map_map. fold raws.
             assert (HO2 : forall s l l1, length l = length l1 -> (forall k x x1, nth_error l k = Some x -> nth_error l1 k = Some x1 -> 
                 nth (Z.to_nat (offS dim rest (E p) i + j)) (nth p (map (fun p => rawValues (pExtra p)) x1) []) 0%Qc = weightedSum (procTasks x p) (lvl i) j) ->
                 qsum (map (fun x => nth (Z.to_nat (offS dim rest (E p) i + j)) (nth p (map (fun p => rawValues (pExtra p)) x) []) 0%Qc) (others s l1)) = qsum (map (fun x => weightedSum (procTasks x p) (lvl i) j) (others s l))).
             { intros s0 l l1 LL HQ. rewrite <- !others_map. f_equal. f_equal. apply nth_ext with (d := 0%Qc) (d' := 0%Qc); [now rewrite !map_length|]. intros k Hk. rewrite map_length in Hk.
               destruct (nth_error_lt l1 k Hk) as (x1 & Ex1). destruct (nth_error_lt l k ltac:(lia)) as (x & Ex).
               rewrite (nth_error_nth _ k (x := nth (Z.to_nat (offS dim rest (E p) i + j)) (nth p (map (fun p => rawValues (pExtra p)) x1) []) 0%Qc)) by (rewrite nth_error_map'; now rewrite Ex1).
               rewrite (nth_error_nth _ k (x := weightedSum (procTasks x p) (lvl i) j)) by (rewrite nth_error_map'; now rewrite Ex). now apply (HQ k). }
             apply HO2; [lia|]. intros k x x1 Ex Ex1. destruct (F1' k x Ex) as (x1' & Ex1' & Mx). rewrite Ex1 in Ex1'. injection Ex1' as <-.
             destruct (HI k x Ex) as [[Lx _] _]. apply (mid_raw (fOut (conf k)) x x1 (fun p i j => weightedSum (procTasks x p) (lvl i) j) p i j); auto. lia.
        * exists pr'. split; auto. intros pr0' Ep0'. rewrite Ep0 in Ep0'. injection Ep0' as <-. auto.
      + exists ps'. split; auto. intros psq Epq. rewrite Es in Epq. injection Epq as <-. split; [split; [lia|]|].
        * intros p pr' Epr'. assert (Hp : (p < length ps2)%nat) by (rewrite <- Lp'; apply nth_error_Some; congruence). destruct (nth_error_lt ps2 p Hp) as (pr2 & Epr2). destruct (nth_error_lt ps p ltac:(lia)) as (pr0 & Ep0).
          destruct (Fp' p pr2 Epr2) as (b & Eb & _ & Q). rewrite Epr' in Eb. injection Eb as <-. now apply (Q pr0).
        * intros p pr0 Ep0. assert (Hp : (p < length ps)%nat) by (apply nth_error_Some; congruence). destruct (nth_error_lt ps2 p ltac:(lia)) as (pr2 & Epr2). destruct (Fp' p pr2 Epr2) as (b & Eb & _ & Q). exists b. split; auto. now apply Q. }
  rewrite indexed_length in L'. exists ws'. split; [exact E'|]. split; [lia|]. intros s ps Es. destruct (F1' s ps Es) as (ps1 & Es1 & _). destruct (F' s (s, ps1)) as (ps' & A & _ & B); [rewrite indexed_nth; now rewrite Es1|].
  exists ps'. split; auto.
Qed.
End Wide.
