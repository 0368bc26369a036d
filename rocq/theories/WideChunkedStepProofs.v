(** The combination of several systems in chunks as a whole. *)
From Verif Require Import Base TensorModel Level1dModel LevelSetsModel LevelSetsProofs SubspaceModel CombiSchemeModel Hier1dModel Hier1dProofs HierMassProofs
  DofProofs SparseGridModel SparseGridProofs CombineModel SparseTransferProofs SparseGridProps ReduceModel ReduceProofs VoteProofs SubspaceReduceProofs
  CombiStepModel CombiStepProofs CombiInitProofs FileModel FileProps ExchangeModel ExchangeProps WideModel WideProofs WideStepProofs WideChunkedModel WideChunkedProofs.
From Coq Require Import QArith Qcanon Permutation.
Open Scope Z_scope.
Ltac Zify.zify_post_hook ::= idtac.

Lemma list_nth_ext : forall {A} (l l' : list A), (forall r, nth_error l r = nth_error l' r) -> l = l'.
Proof.
  intros A. induction l as [|x l IH]; intros [|y l'] H; auto; try (specialize (H O); discriminate). f_equal; [specialize (H O); now injection H|]. apply IH. intros r. exact (H (S r)).
Qed.
Lemma mapDsgs_id : forall f gs, (forall r g, nth_error gs r = Some g -> f r (gDsg g) = gDsg g) -> mapDsgs f gs = gs.
Proof.
  intros f gs H. apply list_nth_ext. intros r. rewrite mapDsgs_nth. destruct (nth_error gs r) as [g|] eqn:E; auto. rewrite (H r g E). destruct g; reflexivity.
Qed.

Section Chunked.
Variables (dim : nat) (rest : list (list Z)).
Let levels := repeat 1 dim :: rest.
Hypothesis HL : sortedLevels dim levels.
Hypothesis HP : Forall (Forall (Z.le 1)) levels.
Let n := Z.of_nat (length levels).
Let lvl (i : Z) := nth (Z.to_nat i) levels [].
Variables (np : nat) (cnt : nat -> list Z -> Z) (E : nat -> list Z).
Hypothesis Hcnt : forall p q, 0 <= cnt p q < 2 ^ 32.

Definition cInv (out : nat) (ps : list Proc) : Prop :=
  length ps = np /\ forall p pr, nth_error ps p = Some pr -> exists is, chunkInv dim rest (cnt p) (E p) out is pr.
Definition cMid (ps1 ps : list Proc) (X : nat -> Z -> Z -> Qc) : Prop :=
  length ps = np /\ forall p pr1 pr, nth_error ps1 p = Some pr1 -> nth_error ps p = Some pr ->
    pGroups pr = pGroups pr1 /\ full dim rest (E p) (pExtra pr) /\ forall i j, 0 <= i < n -> 0 <= j < nth (Z.to_nat i) (E p) 0 -> dData (pExtra pr) (offS dim rest (E p) i + j) = X p i j.
Definition deleted (out : nat) (ps1 : list Proc) : Prop :=
  length ps1 = np /\ forall p pr1, nth_error ps1 p = Some pr1 -> dLen (groupDsg (pGroups pr1) out) = 0.

Lemma cMid_ext : forall ps1 ps X X', cMid ps1 ps X -> (forall p i j, X p i j = X' p i j) -> cMid ps1 ps X'.
Proof. intros ps1 ps X X' (A & B) H. split; auto. intros p pr1 pr E0 E1. destruct (B p pr1 pr E0 E1) as (B1 & B2 & B3). split; auto. split; auto. intros i j Hi Hj. rewrite <- H. auto. Qed.

Lemma cMid_wlen : forall ps1 ps X, length ps1 = np -> cMid ps1 ps X -> wlen np E (map (fun p => rawValues (pExtra p)) ps).
Proof.
  intros ps1 ps X L0 (L & F). split; [now rewrite map_length|]. intros p Hp. destruct (nth_error_lt ps p ltac:(lia)) as (pr & Ep). destruct (nth_error_lt ps1 p ltac:(lia)) as (pr0 & Ep0).
  rewrite (nth_error_nth (map (fun p => rawValues (pExtra p)) ps) p (x := rawValues (pExtra pr))); [|rewrite nth_error_map'; now rewrite Ep].
  destruct (F p pr0 pr Ep0 Ep) as (_ & FE & _). apply (rawValues_length dim rest (cnt p) (Hcnt p) (E p)); auto.
Qed.
Lemma cMid_raw : forall ps1 ps X p i j, length ps1 = np -> cMid ps1 ps X -> (p < np)%nat -> 0 <= i < n -> 0 <= j < nth (Z.to_nat i) (E p) 0 ->
  nth (Z.to_nat (offS dim rest (E p) i + j)) (nth p (map (fun p => rawValues (pExtra p)) ps) []) 0%Qc = X p i j.
Proof.
  intros ps1 ps X p i j L0 (L & F) Hp Hi Hj. destruct (nth_error_lt ps p ltac:(lia)) as (pr & Ep). destruct (nth_error_lt ps1 p ltac:(lia)) as (pr0 & Ep0).
  rewrite (nth_error_nth (map (fun p => rawValues (pExtra p)) ps) p (x := rawValues (pExtra pr))); [|rewrite nth_error_map'; now rewrite Ep].
  destruct (F p pr0 pr Ep0 Ep) as (_ & FE & V). destruct (full_ptr dim rest (E p) _ i FE Hi) as (_ & P0 & P1). rewrite (rawValues_nth dim rest (cnt p) (Hcnt p) (E p)) by (auto; lia). now apply V.
Qed.

Variable fuel : nat.

Lemma readFileChunked_spec : forall out buffer written ps1 ps X, readsOk np E fuel buffer -> deleted out ps1 -> wlen np E written -> cMid ps1 ps X ->
  exists ps', readFileChunked fuel buffer out (Some (concat written)) ps = Some ps' /\
    cMid ps1 ps' (fun p i j => (nth (Z.to_nat (offS dim rest (E p) i + j)) (nth p written []) 0 + X p i j)%Qc).
Proof.
  intros out buffer written ps1 ps X RO [L0 D0] WW M. pose proof M as [L F]. pose proof (cMid_wlen ps1 ps X L0 M) as WR. unfold readFileChunked.
  pose proof RO as (B1 & S1 & N1 & N2).
  rewrite (readReduce_eq 0%Qc); auto; [|now apply (wlen_small dim rest np cnt E Hcnt fuel _ buffer)|now apply (wlen_map np E)|].
  2:{ intros v Hv. destruct (wlen_In np E _ v WR Hv) as (p & Hp & ->). auto. }
  rewrite (proj2 (sameReadsb_spec _ _)).
  2:{ intros v w Hv Hw. destruct (wlen_In np E _ v WR Hv) as (p & Hp & ->). destruct (wlen_In np E _ w WR Hw) as (p' & Hp' & ->). auto. }
  eexists. split; [reflexivity|]. set (raw := map (fun p => rawValues (pExtra p)) ps) in *.
  assert (LM : length (map2 (map2 Qcplus) written raw) = np) by (rewrite map2_length; [apply WW|destruct WW as [-> _], WR as [-> _]; reflexivity]).
  split; [rewrite map_length, combine_length, LM, L; lia|].
  intros p pr1 pr Ep1 Ep'. rewrite nth_error_map' in Ep'. destruct (nth_error (combine (map2 (map2 Qcplus) written raw) ps) p) as [[v prv]|] eqn:Ec; [|discriminate]. injection Ep' as <-.
  assert (Hp : (p < np)%nat) by (rewrite <- L0; apply nth_error_Some; congruence).
  destruct (nth_error_lt ps p ltac:(lia)) as (prx & Epx).
  assert (EC : nth_error (combine (map2 (map2 Qcplus) written raw) ps) p = Some (nth p (map2 (map2 Qcplus) written raw) [], prx)).
  { rewrite (nth_error_nth' _ ([], prx)) by (rewrite combine_length, LM, L; lia). rewrite combine_nth by lia. now rewrite (nth_error_nth ps p _ Epx). }
  rewrite EC in Ec. injection Ec as <- <-. cbn [fst snd pGroups pExtra].
  rewrite (map2_nth _ _ _ _ written raw p [] [] []) by (rewrite ?(proj1 WW), ?(proj1 WR); lia).
  unfold raw. rewrite (nth_error_nth (map (fun p => rawValues (pExtra p)) ps) p (x := rawValues (pExtra prx))) by (rewrite nth_error_map'; now rewrite Epx).
  destruct (F p pr1 prx Ep1 Epx) as (EG & FE & V). destruct (full_len dim rest (E p) _ FE) as (LE & _ & TE).
  assert (LV : length (nth p written []) = Z.to_nat (zsum (E p))) by now apply WW.
  set (new := map2 Qcplus (nth p written []) (rawValues (pExtra prx))). split; [|split].
  - rewrite <- EG. apply mapDsgs_id. intros r g Eg. destruct (Nat.eqb_spec r out) as [->|N]; auto. pose proof (D0 p pr1 Ep1) as D. rewrite <- EG, (groupDsg_nth _ _ _ Eg) in D. now rewrite D.
  - now apply full_data.
  - intros i j Hi Hj. destruct (full_ptr dim rest (E p) _ i FE Hi) as (_ & P0 & P1). unfold withRaw. cbn [withData dData]. rewrite LE. destruct (Z.leb_spec 0 (offS dim rest (E p) i + j)); [|lia].
    destruct (Z.ltb_spec (offS dim rest (E p) i + j) (zsum (E p))); [|lia]. cbn [andb]. unfold new.
    rewrite (map2_nth _ _ _ _ (nth p written []) _ _ 0%Qc 0%Qc 0%Qc) by (rewrite ?LV, ?(rawValues_length dim rest (cnt p) (Hcnt p) (E p)) by auto; lia).
    rewrite (rawValues_nth dim rest (cnt p) (Hcnt p) (E p)) by (auto; lia). now rewrite V.
Qed.

Lemma readFilesChunked_spec : forall q T out buffer files ws ps1 ps X, readsOk np E fuel buffer -> deleted out ps1 -> (forall w, In w ws -> wlen np E w) -> files = map (fun w => Some (concat w)) ws ->
  (forall t i, (T <= t)%nat -> (i < length ws)%nat -> q t i = true) -> (T + length ws <= fuel)%nat -> cMid ps1 ps X ->
  exists order ps', readFilesChunked q fuel buffer out files ps = Some (order, ps') /\ Permutation order (seq 0 (length ws)) /\
    cMid ps1 ps' (fun p i j => (X p i j + qsum (map (fun w => nth (Z.to_nat (offS dim rest (E p) i + j)) (nth p w []) 0%Qc) ws))%Qc).
Proof.
  intros q T out buffer files ws ps1 ps X RO I0 WW -> HT HF M. unfold readFilesChunked. rewrite map_length.
  set (V := fun k p i j => nth (Z.to_nat (offS dim rest (E p) i + j)) (nth p (nth k ws []) []) 0%Qc).
  set (I := fun done s => cMid ps1 s (fun p i j => (X p i j + qsum (map (fun k => V k p i j) done))%Qc)).
  destruct (readLoop_total _ q (fun i => readFileChunked fuel buffer out (nth i (map (fun w => Some (concat w)) ws) None)) (seq 0 (length ws)) I T) with (fuel := fuel) (t := 0%nat) (indices := seq 0 (length ws)) (done := @nil nat) (s := ps)
    as (order & ps' & EL & PO & IL).
  - intros done i s Is Hi. apply in_seq in Hi.
    assert (EN : nth i (map (fun w => Some (concat w)) ws) None = Some (concat (nth i ws []))).
    { rewrite (nth_indep _ None (Some (concat (@nil (list Qc))))) by (rewrite map_length; lia). apply (map_nth (fun w => Some (concat w))). }
    destruct (readFileChunked_spec out buffer (nth i ws []) ps1 s _ RO I0 (WW _ (nth_In _ _ (proj2 Hi))) Is) as (s' & Es' & Ms'). cbv beta. rewrite EN. exists s'. split; [exact Es'|].
    eapply cMid_ext; [exact Ms'|]. intros p i' j. cbv beta. rewrite map_app, qsum_app. cbn [map]. change (qsum [?a]) with (a + 0)%Qc. fold (V i p i' j). ring.
  - intros t i Ht Hi. apply in_seq in Hi. apply HT; auto. lia.
  - apply seq_NoDup.
  - auto.
  - eapply cMid_ext; [exact M|]. intros p i j. cbv beta. cbn [map]. change (qsum []) with 0%Qc. ring.
  - rewrite seq_length. lia.
  - exists order, ps'. split; [exact EL|]. split; auto. eapply cMid_ext; [exact IL|]. intros p i j. cbv beta. f_equal.
    cbn [app]. rewrite (Permutation_qsum _ (map (fun k => V k p i j) (seq 0 (length ws)))) by now apply Permutation_map.
    unfold V. rewrite <- (map_nth_seq ws []) at 2. rewrite map_map. reflexivity.
Qed.

Lemma combineChunked_spec : forall esz conf olds ws, (forall s ps, nth_error ws s = Some ps -> cInv (fOut (conf s)) ps /\ confOk np E fuel (olds s) (length ws) (conf s)) -> sharedOk dim rest np cnt E ws ->
  exists ws', combineChunked esz levels conf fuel olds ws = Some ws' /\ length ws' = length ws /\
    forall s ps, nth_error ws s = Some ps -> exists ps', nth_error ws' s = Some ps' /\ cInv (fOut (conf s)) ps' /\
      forall p pr, nth_error ps p = Some pr -> exists pr', nth_error ps' p = Some pr' /\
        Forall2 (fun g g' => stepped (weightedSum (concat (map (fun ps => procTasks ps p) ws))) (fun l => In l levels) g g') (pGroups pr) (pGroups pr').
Proof.
  intros esz conf olds ws HI HS. unfold combineChunked. cbv zeta.
  set (collected := fun ps ps1 => forall p pr pr1, nth_error ps p = Some pr -> nth_error ps1 p = Some pr1 ->
     Forall2 (fun g g' => (stepped (weightedSum (allTasks (pGroups pr))) (fun l => In l levels) g g' /\ chunkGroupOk dim rest (cnt p) g') /\ dLen (gDsg g') = 0) (pGroups pr) (pGroups pr1)).
  destruct (mapO_nth (fun s (sw : nat * list Proc) ps1 => forall ps, nth_error ws s = Some ps -> cMid ps1 ps1 (fun p i j => weightedSum (procTasks ps p) (lvl i) j) /\ deleted (fOut (conf s)) ps1 /\ collected ps ps1)
     (fun sw => mapO (collectKeep esz (fChunk (conf (fst sw))) (fOut (conf (fst sw))) levels) (snd sw)) (indexed ws)) as (ws1 & E1 & L1 & F1).
  { intros s [s' ps] Es. rewrite indexed_nth in Es. destruct (nth_error ws s) as [psx|] eqn:Ew; [|discriminate]. injection Es as <- <-. cbn [fst snd]. cbv zeta. destruct (HI s psx Ew) as [[LI I] (C1 & _)].
    destruct (mapO_nth (fun p pr pr1 => Forall2 (fun g g' => (stepped (weightedSum (allTasks (pGroups pr))) (fun l => In l levels) g g' /\ chunkGroupOk dim rest (cnt p) g') /\ dLen (gDsg g') = 0) (pGroups pr) (pGroups pr1) /\
         holdsE dim rest (E p) (fun _ => True) (weightedSum (allTasks (pGroups pr))) (pExtra pr1))
       (collectKeep esz (fChunk (conf s)) (fOut (conf s)) levels) psx) as (ps1 & Ep & Lp & Fp).
    - intros p pr Epr. destruct (I p pr Epr) as (is & Ii). destruct (collectKeep_spec dim rest HL HP (cnt p) (Hcnt p) (E p) esz (fChunk (conf s)) (fOut (conf s)) is pr C1 Ii) as (pr' & A & B & C). exists pr'. auto.
    - exists ps1. split; [exact Ep|]. intros ps Eps. injection Eps as <-. assert (CO : collected psx ps1).
      { intros p pr pr1 Epr Epr1. destruct (Fp p pr Epr) as (b & Eb & _ & B & _). rewrite Epr1 in Eb. injection Eb as <-. exact B. }
      split; [|split; auto].
      + split; [lia|]. intros p pr1 pr1' Epr1 Epr1'. rewrite Epr1 in Epr1'. injection Epr1' as <-. destruct (nth_error_lt psx p) as (pr & Epr); [rewrite <- Lp; apply nth_error_Some; congruence|].
        destruct (Fp p pr Epr) as (b & Eb & _ & _ & [FE V]). rewrite Epr1 in Eb. injection Eb as <-. split; auto. split; auto. intros i j Hi Hj. unfold procTasks. rewrite Epr. now apply V.
      + split; [lia|]. intros p pr1 Epr1. destruct (nth_error_lt psx p) as (pr & Epr); [rewrite <- Lp; apply nth_error_Some; congruence|].
        destruct (I p pr Epr) as (is & (_ & _ & (go & Ego & _) & _)). destruct (Forall2_nth_error _ _ _ _ _ (CO p pr pr1 Epr Epr1) Ego) as (go1 & Ego1 & _ & D). now rewrite (groupDsg_nth _ _ _ Ego1). }
  rewrite E1. rewrite indexed_length in L1.
  assert (F1' : forall s ps, nth_error ws s = Some ps -> exists ps1, nth_error ws1 s = Some ps1 /\ cMid ps1 ps1 (fun p i j => weightedSum (procTasks ps p) (lvl i) j) /\ deleted (fOut (conf s)) ps1 /\ collected ps ps1).
  { intros s ps Es. destruct (F1 s (s, ps)) as (ps1 & A & _ & B); [rewrite indexed_nth; now rewrite Es|]. exists ps1. split; auto. }
  set (raws := map (fun ps => map (fun p => rawValues (pExtra p)) ps) ws1).
  assert (EF : map (fun sw => Some (writeValues 0%Qc (olds (fst sw)) false (map (fun p => rawValues (pExtra p)) (snd sw)) (fOrder (conf (fst sw))))) (indexed ws1) = map (fun w => Some (concat w)) raws).
  { unfold raws. rewrite map_map. apply nth_ext with (d := None) (d' := None); [now rewrite !map_length, indexed_length|]. intros s Hs. rewrite map_length, indexed_length in Hs.
    destruct (nth_error_lt ws1 s Hs) as (ps1 & Es1). destruct (nth_error_lt ws s ltac:(lia)) as (ps & Es).
    rewrite !(nth_error_nth (map _ _) s (x := Some (concat (map (fun p => rawValues (pExtra p)) ps1)))); auto; rewrite nth_error_map'.
    - now rewrite Es1.
    - rewrite indexed_nth, Es1. cbn [fst snd]. destruct (F1' s ps Es) as (psx & Ex & M & DE & _). rewrite Es1 in Ex. injection Ex as <-. destruct (HI s ps Es) as [[LI I] (_ & RO & PO & LO & _)].
      pose proof (cMid_wlen ps1 ps1 _ (proj1 DE) M) as WL. do 2 f_equal. apply C37_file_contents; [now apply (wlen_small dim rest np cnt E Hcnt fuel _ (fBuffer (conf s)))|rewrite map_length, (proj1 M); exact PO|]. rewrite (wlen_concat dim rest np cnt E Hcnt _ WL). exact LO. }
  rewrite EF.
  assert (RW : forall w, In w raws -> wlen np E w).
  { intros w Hw. apply in_map_iff in Hw. destruct Hw as (ps1 & <- & Hp). apply In_nth_error in Hp. destruct Hp as (s & Es1).
    destruct (nth_error_lt ws s) as (ps & Es); [rewrite <- L1; apply nth_error_Some; congruence|]. destruct (F1' s ps Es) as (psx & Ex & M & DE & _). rewrite Es1 in Ex. injection Ex as <-.
    now apply (cMid_wlen ps1 ps1 _ (proj1 DE) M). }
  destruct (mapO_nth (fun s (sw : nat * list Proc) ps' => forall ps, nth_error ws s = Some ps -> cInv (fOut (conf s)) ps' /\
      forall p pr, nth_error ps p = Some pr -> exists pr', nth_error ps' p = Some pr' /\
        Forall2 (fun g g' => stepped (weightedSum (concat (map (fun ps => procTasks ps p) ws))) (fun l => In l levels) g g') (pGroups pr) (pGroups pr'))
     (fun sw => match readFilesChunked (fQuery (conf (fst sw))) fuel (fBuffer (conf (fst sw))) (fOut (conf (fst sw))) (others (fst sw) (map (fun w => Some (concat w)) raws)) (snd sw) with
                | None => None
                | Some (_, ps) => mapO (distributeChunked esz (fChunk (conf (fst sw))) (fOut (conf (fst sw))) levels) ps
                end) (indexed ws1)) as (ws' & E' & L' & F').
  { intros s [sx ps1] Es1. rewrite indexed_nth in Es1. destruct (nth_error ws1 s) as [psx|] eqn:Ew1; [|discriminate]. injection Es1 as <- <-. cbn [fst snd]. cbv zeta.
    assert (Hs : (s < length ws)%nat) by (rewrite <- L1; apply nth_error_Some; congruence). destruct (nth_error_lt ws s Hs) as (ps & Es). destruct (F1' s ps Es) as (psy & Ey & M & DE & CO). rewrite Ew1 in Ey. injection Ey as <-.
    destruct (HI s ps Es) as [SI (HMC & RO & _ & _ & T & HT & HF)]. pose proof SI as [LI I].
    assert (LR : length (others s raws) = (length ws - 1)%nat) by (rewrite others_length; unfold raws; rewrite map_length; lia).
    destruct (readFilesChunked_spec (fQuery (conf s)) T (fOut (conf s)) (fBuffer (conf s)) (others s (map (fun w => Some (concat w)) raws)) (others s raws) psx psx (fun p i j => weightedSum (procTasks ps p) (lvl i) j) RO DE) as (order & ps2 & Er & _ & M2).
    - intros w Hw. apply others_In in Hw. destruct Hw as (s' & _ & Hw). apply RW. now apply nth_error_In in Hw.
    - apply others_map.
    - rewrite LR. exact HT.
    - rewrite LR. exact HF.
    - exact M.
    - rewrite Er. pose proof M2 as [L2 F2].
      destruct (mapO_nth (fun p pr2 pr' => forall pr0, nth_error ps p = Some pr0 -> (exists is, chunkInv dim rest (cnt p) (E p) (fOut (conf s)) is pr') /\
          Forall2 (fun g g' => stepped (weightedSum (concat (map (fun ps => procTasks ps p) ws))) (fun l => In l levels) g g') (pGroups pr0) (pGroups pr'))
         (distributeChunked esz (fChunk (conf s)) (fOut (conf s)) levels) ps2) as (ps' & Ep' & Lp' & Fp').
      + intros p pr2 Epr2. assert (Hp : (p < np)%nat) by (rewrite <- L2; apply nth_error_Some; congruence). destruct (nth_error_lt ps p ltac:(lia)) as (pr0 & Ep0). destruct (nth_error_lt psx p) as (pr1 & Ep1); [rewrite (proj1 DE); lia|].
        destruct (I p pr0 Ep0) as (is & PI). destruct (F2 p pr1 pr2 Ep1 Epr2) as (EG2 & FE2 & V2).
        assert (TK : forall psz prz, nth_error ws psz = Some prz -> Forall (goodComp dim) (procTasks prz p)).
        { intros s' psz Ez. destruct (HI s' psz Ez) as [[_ Iz] _]. unfold procTasks. destruct (nth_error psz p) as [prz|] eqn:Epz; [|constructor]. destruct (Iz p prz Epz) as (isz & (Gz & _)).
          apply Forall_forall. intros c' Hc'. unfold allTasks in Hc'. apply in_flat_map in Hc'. destruct Hc' as (gz & Hgz & Hc'). rewrite Forall_forall in Gz. destruct (Gz gz Hgz) as (TKz & _).
          unfold tasksOk in TKz. rewrite Forall_forall in TKz. now apply TKz. }
        assert (SPLIT : forall i j, weightedSum (concat (map (fun ps => procTasks ps p) ws)) (lvl i) j = (weightedSum (procTasks ps p) (lvl i) j + qsum (map (fun ps => weightedSum (procTasks ps p) (lvl i) j) (others s ws)))%Qc).
        { intros i j. rewrite weightedSum_concat, map_map. rewrite (Permutation_qsum _ _ (Permutation_map (fun ps => weightedSum (procTasks ps p) (lvl i) j) (others_perm s ws ps Es))). reflexivity. }
        destruct (finishChunked_spec dim rest HL (cnt p) (Hcnt p) (E p) esz (fChunk (conf s)) (fOut (conf s)) is (weightedSum (concat (map (fun ps => procTasks ps p) ws))) pr0 pr1 pr2 HMC PI) as (pr' & Ef & If & Sf); [exact (CO p pr0 pr1 Ep0 Ep1)|exact EG2| | |].
        * split; auto. intros i j _ Hi Hj. rewrite V2 by auto. cbv beta. change (nth (Z.to_nat i) (repeat 1 dim :: rest) []) with (lvl i). rewrite SPLIT. f_equal.
          unfold raws. rewrite others_map, map_map. fold raws.
          assert (HO2 : forall s l l1, length l = length l1 -> (forall k x x1, nth_error l k = Some x -> nth_error l1 k = Some x1 -> 
                 nth (Z.to_nat (offS dim rest (E p) i + j)) (nth p (map (fun p => rawValues (pExtra p)) x1) []) 0%Qc = weightedSum (procTasks x p) (lvl i) j) ->
                 qsum (map (fun x => nth (Z.to_nat (offS dim rest (E p) i + j)) (nth p (map (fun p => rawValues (pExtra p)) x) []) 0%Qc) (others s l1)) = qsum (map (fun x => weightedSum (procTasks x p) (lvl i) j) (others s l))).
          { intros s0 l l1 LL HQ. rewrite <- !others_map. f_equal. f_equal. apply nth_ext with (d := 0%Qc) (d' := 0%Qc); [now rewrite !map_length|]. intros k Hk. rewrite map_length in Hk.
            destruct (nth_error_lt l1 k Hk) as (x1 & Ex1). destruct (nth_error_lt l k ltac:(lia)) as (x & Ex).
            rewrite (nth_error_nth _ k (x := nth (Z.to_nat (offS dim rest (E p) i + j)) (nth p (map (fun p => rawValues (pExtra p)) x1) []) 0%Qc)) by (rewrite nth_error_map'; now rewrite Ex1).
            rewrite (nth_error_nth _ k (x := weightedSum (procTasks x p) (lvl i) j)) by (rewrite nth_error_map'; now rewrite Ex). now apply (HQ k). }
          apply HO2; [lia|]. intros k x x1 Ex Ex1. destruct (F1' k x Ex) as (x1' & Ex1' & Mx & Dx & _). rewrite Ex1 in Ex1'. injection Ex1' as <-.
          apply (cMid_raw x1 x1 (fun p i j => weightedSum (procTasks x p) (lvl i) j) p i j); auto. apply Dx.
        * intros c i j Hc Hi Hcl Hj Z0. change (weightedSum (allTasks (pGroups pr0)) (lvl i) j = weightedSum (concat (map (fun ps => procTasks ps p) ws)) (lvl i) j). rewrite SPLIT.
          assert (CT : procTasks ps p = allTasks (pGroups pr0)) by (unfold procTasks; now rewrite Ep0). rewrite CT.
          rewrite (qsum_zero (fun ps => weightedSum (procTasks ps p) (lvl i) j)); [ring|]. intros psz Hz. apply others_In in Hz. destruct Hz as (s' & Ns & Ez). apply (notContained_zero dim rest HL HP); auto; [now apply (TK s')|].
          intros c' Hc' X. apply (HS s s' ps psz p i c c'); auto; [now rewrite CT|]. assert (Hj' : 0 <= j < cnt p (lvl i)) by exact Hj. lia.
        * exists pr'. split; auto. intros pr0' Ep0'. rewrite Ep0 in Ep0'. injection Ep0' as <-. eauto.
      + exists ps'. split; auto. intros psq Epq. rewrite Es in Epq. injection Epq as <-. split; [split; [lia|]|].
        * intros p pr' Epr'. assert (Hp : (p < length ps2)%nat) by (rewrite <- Lp'; apply nth_error_Some; congruence). destruct (nth_error_lt ps2 p Hp) as (pr2 & Epr2). destruct (nth_error_lt ps p ltac:(lia)) as (pr0 & Ep0).
          destruct (Fp' p pr2 Epr2) as (b & Eb & _ & Q). rewrite Epr' in Eb. injection Eb as <-. now apply (Q pr0).
        * intros p pr0 Ep0. assert (Hp : (p < length ps)%nat) by (apply nth_error_Some; congruence). destruct (nth_error_lt ps2 p ltac:(lia)) as (pr2 & Epr2). destruct (Fp' p pr2 Epr2) as (b & Eb & _ & Q). exists b. split; auto. now apply Q. }
  rewrite indexed_length in L'. exists ws'. split; [exact E'|]. split; [lia|]. intros s ps Es. destruct (F1' s ps Es) as (ps1 & Es1 & _). destruct (F' s (s, ps1)) as (ps' & A & _ & B); [rewrite indexed_nth; now rewrite Es1|].
  exists ps'. split; auto.
Qed.
End Chunked.
