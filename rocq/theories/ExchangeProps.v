(** C40, C41: exchange with other systems by files. *)
From Verif Require Import Base FileModel FileProps ReduceModel ExchangeModel.
From Coq Require Import String DecimalString Ascii Permutation QArith Qcanon.
Open Scope Z_scope.
Open Scope list_scope.
Ltac Zify.zify_post_hook ::= idtac.
Notation length := List.length.
Notation concat := List.concat.

(** ** C40: the order of the reads *)
Lemma scan_none : forall q indices t t', scanTokens q t indices = (t', None) -> t' = (t + length indices)%nat /\ (forall k, (k < length indices)%nat -> q (t + k)%nat (nth k indices 0%nat) = false).
Proof.
  intros q. induction indices as [|i indices IH]; intros t t' H; cbn [scanTokens] in H.
  - injection H as <-. cbn. split; [lia|intros; lia].
  - destruct (q t i) eqn:E; [discriminate|]. destruct (IH _ _ H) as [-> H2]. cbn [length]. split; [lia|]. intros [|k] Hk; cbn [nth]; [now rewrite Nat.add_0_r|].
    rewrite <- Nat.add_succ_comm. apply H2. lia.
Qed.
Lemma scan_some : forall q indices t t' i, scanTokens q t indices = (t', Some i) -> In i indices /\ (t < t')%nat.
Proof.
  intros q. induction indices as [|j indices IH]; intros t t' i H; cbn [scanTokens] in H; [discriminate|].
  destruct (q t j); [injection H as <- <-; split; [now left|lia]|]. apply IH in H. destruct H. split; [now right|lia].
Qed.
Definition without (i : nat) (l : list nat) : list nat := filter (fun j => negb (Nat.eqb j i)) l.
Lemma without_perm : forall i l, NoDup l -> In i l -> Permutation l (i :: without i l) /\ NoDup (without i l).
Proof.
  intros i l ND HI. assert (N2 : NoDup (without i l)) by (now apply NoDup_filter). split; auto. apply NoDup_Permutation; auto.
  - constructor; auto. intros H. apply filter_In in H. destruct H as [_ H]. now rewrite Nat.eqb_refl in H.
  - intros x. split.
    + intros H. destruct (Nat.eq_dec i x) as [->|N]; [now left|right]. apply filter_In. split; auto. destruct (Nat.eqb_spec x i); [congruence|auto].
    + intros [<-|H]; auto. now apply filter_In in H.
Qed.

Definition readAll {S : Type} (read : nat -> S -> option S) (order : list nat) (s : S) : option S :=
  fold_left (fun o i => match o with Some s => read i s | None => None end) order (Some s).

Lemma readLoop_order : forall (S : Type) q (read : nat -> S -> option S) fuel t indices done s done' s', NoDup indices ->
  readLoop q read fuel t indices done s = Some (done', s') -> exists order, done' = done ++ order /\ Permutation order indices /\ readAll read order s = Some s'.
Proof.
  intros S q read. induction fuel as [|fuel IH]; intros t indices done s done' s' ND H; destruct indices as [|i0 rest]; cbn [readLoop] in H; try discriminate;
    try (injection H as <- <-; exists []; rewrite app_nil_r; repeat split; auto; fail).
  set (l := i0 :: rest) in *. clearbody l. destruct (scanTokens q t l) as [t' [i|]] eqn:ES.
  - destruct (scan_some _ _ _ _ _ ES) as [HI _]. destruct (without_perm i l ND HI) as [P1 N1]. destruct (read i s) as [s1|] eqn:ER; [|discriminate].
    destruct (IH _ _ _ _ _ _ N1 H) as (order & -> & P2 & HR). exists (i :: order). rewrite <- app_assoc. split; [auto|]. split.
    + eapply perm_trans; [apply perm_skip, P2|]. now apply Permutation_sym.
    + unfold readAll in *. cbn [fold_left]. now rewrite ER.
  - destruct (IH _ _ _ _ _ _ ND H) as (order & -> & P2 & HR). eauto.
Qed.

(** Whatever the answers to the questions for the token files: if the loop ends, every announced file was read exactly once. *)
Theorem C40_exactly_once : forall (S : Type) q (read : nat -> S -> option S) fuel n s order s',
  readLoop q read fuel 0 (seq 0 n) [] s = Some (order, s') -> Permutation order (seq 0 n) /\ readAll read order s = Some s'.
Proof.
  intros S q read fuel n s order s' H. destruct (readLoop_order S q read fuel 0 (seq 0 n) [] s order s' (seq_NoDup n 0) H) as (o & -> & P & HR). auto.
Qed.

(** ** Values *)
Definition at2 {A : Type} (zero : A) (v : list (list A)) (r j : nat) : A := nth j (nth r v []) zero.
Lemma at2_map2 : forall (A : Type) (zero : A) (op : A -> A -> A) v w r j, map (@length A) v = map (@length A) w -> (r < length w)%nat -> (j < length (nth r w []))%nat ->
  at2 zero (map2 (map2 op) v w) r j = op (at2 zero v r j) (at2 zero w r j).
Proof.
  intros A zero op v w r j HL Hr Hj. destruct (lengths_total v w HL) as [L _]. destruct (lengths_pos v w r HL) as [_ Lr].
  unfold at2. rewrite (map2_nth _ _ _ _ v w r [] [] []) by lia. apply map2_nth; lia.
Qed.
Lemma lengths_map2 : forall (A : Type) (op : A -> A -> A) v w, map (@length A) v = map (@length A) w -> map (@length A) (map2 (map2 op) v w) = map (@length A) w.
Proof.
  intros A op. induction v as [|x v IH]; intros [|y w] H; cbn in *; try discriminate; auto. injection H as H1 H2. rewrite IH by auto. f_equal. rewrite map2_length; lia.
Qed.

Section Sum.
Open Scope Qc_scope.
Definition total (f : nat -> Qc) (l : list nat) : Qc := fold_right (fun i acc => f i + acc) 0 l.
Lemma total_perm : forall f l1 l2, Permutation l1 l2 -> total f l1 = total f l2.
Proof. intros f l1 l2 P. induction P; cbn [total fold_right]; auto. - now f_equal. - unfold total. ring. - congruence. Qed.

Variable written : nat -> list (list Qc).
Variable own : list (list Qc).
Variable n buffer : nat.
Hypothesis Hlen : forall i, map (@length Qc) (written i) = map (@length Qc) own.
Hypothesis Hsmall : smallData own.
Hypothesis Hbuf : (1 <= buffer)%nat.
Hypothesis Hreads : sameReads buffer own.

Lemma sameReads_lengths : forall (d1 d2 : list (list Qc)), map (@length Qc) d1 = map (@length Qc) d2 -> (sameReads buffer d2 -> sameReads buffer d1) /\ (smallData d2 -> smallData d1).
Proof.
  intros d1 d2 H. assert (HI : forall v, In v d1 -> exists w, In w d2 /\ length w = length v).
  { intros v Hv. apply (in_map (@length Qc)) in Hv. rewrite H in Hv. apply in_map_iff in Hv. destruct Hv as (w & E & Hw). eauto. }
  split.
  - intros HS v w Hv Hw. destruct (HI v Hv) as (v' & Hv' & <-), (HI w Hw) as (w' & Hw' & <-). auto.
  - intros HS. apply Forall_forall. intros v Hv. destruct (HI v Hv) as (w & Hw & <-). unfold smallData in HS. rewrite Forall_forall in HS. auto.
Qed.

Lemma one_read : forall fuel i s, map (@length Qc) s = map (@length Qc) own -> (forall v, In v own -> (numReads (length v) buffer <= fuel)%nat) ->
  readReduceValues fuel Qcplus (Some (concat (written i))) buffer s = Some (map2 (map2 Qcplus) (written i) s).
Proof.
  intros fuel i s HS HF. destruct (sameReads_lengths s own HS) as [SR SM]. rewrite readReduce_eq; auto.
  - now rewrite (proj2 (sameReadsb_spec _ _) (SR Hreads)).
  - exact 0.
  - now rewrite Hlen.
  - intros v Hv. apply (in_map (@length Qc)) in Hv. rewrite HS in Hv. apply in_map_iff in Hv. destruct Hv as (w & <- & Hw). now apply HF.
Qed.
Lemma all_reads : forall fuel order s s', map (@length Qc) s = map (@length Qc) own -> (forall v, In v own -> (numReads (length v) buffer <= fuel)%nat) ->
  readAll (fun i s => readReduceValues fuel Qcplus (Some (concat (written i))) buffer s) order s = Some s' ->
  map (@length Qc) s' = map (@length Qc) own /\ forall r j, (r < length own)%nat -> (j < length (nth r own []))%nat -> at2 0 s' r j = at2 0 s r j + total (fun i => at2 0 (written i) r j) order.
Proof.
  intros fuel. induction order as [|i order IH]; intros s s' HS HF H; unfold readAll in H; cbn [fold_left] in H.
  - injection H as <-. split; auto. intros r j _ _. cbn [total fold_right]. ring.
  - rewrite one_read in H by auto. assert (L1 : map (@length Qc) (map2 (map2 Qcplus) (written i) s) = map (@length Qc) own) by (rewrite lengths_map2; auto; now rewrite Hlen).
    destruct (IH _ _ L1 HF H) as [LS HV]. split; auto. intros r j Hr Hj. rewrite HV by auto.
    destruct (lengths_total _ _ HS) as [L _]. destruct (lengths_pos _ _ r HS) as [_ Lr]. rewrite at2_map2; [|now rewrite Hlen|lia|lia].
    cbn [total fold_right]. fold (total (fun i0 => at2 0 (written i0) r j) order). ring.
Qed.

(** The result is the sum of the own and all announced values, in any order of arrival. Missing: buffer sizes with different numbers of
    reads (C39). *)
Theorem C40_sum_partial : forall q fuel order res, (forall v, In v own -> (numReads (length v) buffer <= fuel)%nat) ->
  readReduce Qcplus (fun i => Some (concat (written i))) buffer false q fuel n own = Some (order, res) ->
  Permutation order (seq 0 n) /\
  forall r j, (r < length own)%nat -> (j < length (nth r own []))%nat -> at2 0 res r j = at2 0 own r j + total (fun i => at2 0 (written i) r j) (seq 0 n).
Proof.
  intros q fuel order res HF H. unfold readReduce in H. apply C40_exactly_once in H. destruct H as [P HR]. split; auto. cbn beta iota in HR.
  destruct (all_reads fuel order own res eq_refl HF HR) as [_ HV]. intros r j Hr Hj. rewrite HV by auto. f_equal. now apply total_perm.
Qed.

Lemma readLoop_ends : forall q fuel0 T fuel t indices done s, NoDup indices ->
  (forall v, In v own -> (numReads (length v) buffer <= fuel0)%nat) -> map (@length Qc) s = map (@length Qc) own ->
  (forall t' i, (T <= t')%nat -> In i indices -> q t' i = true) -> (T - t + length indices <= fuel)%nat ->
  exists r, readLoop q (fun i s => readReduceValues fuel0 Qcplus (Some (concat (written i))) buffer s) fuel t indices done s = Some r.
Proof.
  intros q fuel0 T. induction fuel as [|fuel IH]; intros t indices done s ND HF HS HT HL; destruct indices as [|i0 rest].
  - eexists. reflexivity.
  - cbn [length] in HL. lia.
  - eexists. reflexivity.
  - cbn [readLoop]. set (l := i0 :: rest) in *. assert (LL : (1 <= length l)%nat) by (cbn; lia). assert (I0 : nth 0 l 0%nat = i0) by reflexivity. assert (IN0 : In i0 l) by now left. clearbody l.
    destruct (scanTokens q t l) as [t' [i|]] eqn:ES.
    + destruct (scan_some _ _ _ _ _ ES) as [HI Ht]. destruct (without_perm i l ND HI) as [P1 N1]. rewrite one_read by auto.
      apply IH; auto.
      * rewrite lengths_map2; auto. now rewrite Hlen.
      * intros t2 j H2 Hj. apply HT; auto. apply filter_In in Hj. tauto.
      * apply Permutation_length in P1. cbn [length] in P1. unfold without in P1. lia.
    + destruct (scan_none _ _ _ _ ES) as [-> HQ]. specialize (HQ 0%nat ltac:(lia)). rewrite Nat.add_0_r, I0 in HQ.
      destruct (Nat.le_gt_cases T t) as [H|H]; [rewrite HT in HQ by auto; discriminate|]. apply IH; auto. lia.
Qed.
(** If from some question on all token files exist, the loop ends. *)
Theorem C40_ends_partial : forall q T fuel, (forall t i, (T <= t)%nat -> (i < n)%nat -> q t i = true) -> (T + n <= fuel)%nat ->
  (forall v, In v own -> (numReads (length v) buffer <= fuel)%nat) ->
  exists r, readReduce Qcplus (fun i => Some (concat (written i))) buffer false q fuel n own = Some r.
Proof.
  intros q T fuel HT HL HF. unfold readReduce. cbn beta iota. apply (readLoop_ends q fuel T); auto.
  - apply seq_NoDup.
  - intros t i Ht Hi. apply HT; auto. apply in_seq in Hi. lia.
  - rewrite seq_length. lia.
Qed.
End Sum.

(** With overwrite = true and two files the values read last remain: the result depends on the order of arrival. *)
Theorem C40_overwrite_refuted : exists (files : nat -> option (list Z)) own q1 q2 fuel r1 r2,
  readReduce Z.add files 1 true q1 fuel 2 own = Some ([0; 1]%nat, r1) /\ readReduce Z.add files 1 true q2 fuel 2 own = Some ([1; 0]%nat, r2) /\ r1 <> r2.
Proof.
  exists (fun i => Some [Z.of_nat i]), [[7]], (fun _ _ => true), (fun t i => Nat.ltb 0 t), 3%nat, [[1]], [[0]]. repeat split; try reflexivity. discriminate.
Qed.

(** ** Removing files *)
Open Scope string_scope.
Lemma contains_app : forall a p s, contains p (a ++ p ++ s) = true.
Proof.
  assert (PX : forall p s, String.prefix p (p ++ s) = true). { induction p as [|c p IH]; intros s; cbn; [now destruct s|]. destruct (ascii_dec c c); [apply IH|congruence]. }
  induction a as [|c a IH]; intros p s.
  - cbn [String.append]. destruct (p ++ s) eqn:E; cbn [contains]; rewrite <- E, PX; reflexivity.
  - cbn [String.append contains]. now rewrite IH, orb_true_r.
Qed.
Lemma append_assoc : forall a b c : string, (a ++ b) ++ c = a ++ b ++ c.
Proof. induction a as [|x a IH]; intros b c; cbn; [auto|now rewrite IH]. Qed.

(** The root of part 1 removes the files of the parts 10 to 19 of the same system, for every file name: the pattern is searched anywhere
    in the name. *)
Theorem C40_remove_refuted : forall prefixName d directory, (10 <= d < 20)%nat -> ~ In (partName prefixName d) (removeReadingFiles [prefixName] 1 directory).
Proof.
  intros p d directory Hd H. apply filter_In in H. destruct H as [_ H]. cbn [existsb] in H. rewrite orb_false_r in H.
  assert (E : exists c, partName p d = partName p 1 ++ String c "").
  { assert (HD : exists c, toString d = toString 1 ++ String c "").
    { do 10 (destruct d as [|d]; [lia|]). do 10 (destruct d as [|d]; [eexists; reflexivity|]). lia. }
    destruct HD as [c HD]. exists c. unfold partName. rewrite HD, !append_assoc. reflexivity. }
  destruct E as [c E]. rewrite E in H. change ("./" ++ partName p 1 ++ String c "") with ("./" ++ (partName p 1 ++ String c "")) in H. now rewrite contains_app in H.
Qed.

(** Comparing from the end: characters of a string. *)
Lemma string_length_app : forall a b, String.length (a ++ b) = (String.length a + String.length b)%nat.
Proof. induction a as [|c a IH]; intros b; cbn; [auto|now rewrite IH]. Qed.
Lemma get_prefix : forall p s, String.prefix p s = true -> forall i, (i < String.length p)%nat -> String.get i p = String.get i s.
Proof.
  induction p as [|c p IH]; intros s H i Hi; [cbn in Hi; lia|]. destruct s as [|c2 s]; [discriminate|]. cbn in H. destruct (ascii_dec c c2) as [<-|]; [|discriminate].
  destruct i; [reflexivity|]. cbn [String.get]. apply IH; auto. cbn in Hi. lia.
Qed.
Lemma prefix_length : forall p s, String.prefix p s = true -> (String.length p <= String.length s)%nat.
Proof. induction p as [|c p IH]; intros s H; [cbn; lia|]. destruct s as [|c2 s]; [discriminate|]. cbn in H. destruct (ascii_dec c c2); [|discriminate]. apply IH in H. cbn. lia. Qed.
Lemma contains_get : forall p s, contains p s = true -> exists o, (o + String.length p <= String.length s)%nat /\ forall i, (i < String.length p)%nat -> String.get i p = String.get (o + i) s.
Proof.
  intros p. induction s as [|c s IH]; intros H; cbn [contains] in H.
  - rewrite orb_false_r in H. exists 0%nat. split; [now apply prefix_length in H|]. intros i Hi. now apply get_prefix.
  - apply orb_true_iff in H. destruct H as [H|H].
    + exists 0%nat. split; [now apply prefix_length in H|]. intros i Hi. cbn [Nat.add]. now apply get_prefix.
    + destruct (IH H) as (o & HO & HG). exists (S o). cbn [String.length Nat.add String.get]. split; [lia|auto].
Qed.
Lemma get_app : forall a b i, String.get (String.length a + i) (a ++ b) = String.get i b.
Proof. induction a as [|c a IH]; intros b i; cbn [String.length Nat.add String.append]; auto. cbn [String.get]. apply IH. Qed.

(** With at most ten parts: the file of another part stays, the own one is removed. Missing: more parts. *)
Theorem C40_remove_partial : forall prefixName p q directory, (p < 10)%nat -> (q < 10)%nat ->
  (p <> q -> In (partName prefixName q) directory -> In (partName prefixName q) (removeReadingFiles [prefixName] p directory)) /\
  ~ In (partName prefixName p) (removeReadingFiles [prefixName] p directory).
Proof.
  intros x p q directory Hp Hq. split.
  - intros NE HI. apply filter_In. split; auto. cbn [existsb]. rewrite orb_false_r. destruct (contains (partName x p) ("./" ++ partName x q)) eqn:E; auto. exfalso.
    apply contains_get in E. destruct E as (o & HO & HG).
    assert (DP : exists c, toString p = String c "" /\ c = ascii_of_nat (48 + p)) by (do 10 (destruct p as [|p]; [eexists; split; reflexivity|]); lia).
    assert (DQ : exists c, toString q = String c "" /\ c = ascii_of_nat (48 + q)) by (do 10 (destruct q as [|q]; [eexists; split; reflexivity|]); lia).
    destruct DP as (cp & TP & CP), DQ as (cq & TQ & CQ).
    assert (LP : String.length (partName x p) = (String.length x + 8)%nat) by (unfold partName; rewrite string_length_app, TP; reflexivity).
    assert (LQ : String.length ("./" ++ partName x q) = (2 + String.length x + 8)%nat) by (unfold partName; rewrite !string_length_app, TQ; cbn; lia).
    rewrite LP, LQ in HO. specialize (HG (String.length x + 7)%nat ltac:(lia)).
    assert (G1 : String.get (String.length x + 7) (partName x p) = Some cp) by (unfold partName; rewrite get_app, TP; reflexivity).
    assert (G2 : String.get (o + (String.length x + 7)) ("./" ++ partName x q) = String.get (5 + o) ("_0.part" ++ toString q)).
    { replace (o + (String.length x + 7))%nat with (2 + (String.length x + (5 + o)))%nat by lia. rewrite (get_app "./"). unfold partName. apply get_app. }
    rewrite G1, G2, TQ in HG.
    assert (R1 : nat_of_ascii cp = (48 + p)%nat) by (rewrite CP; apply nat_ascii_embedding; lia).
    destruct o as [|[|[|o]]]; [| | |lia].
    + cbn in HG. injection HG as ->. revert R1. cbn. lia.
    + cbn in HG. injection HG as ->. revert R1. cbn. lia.
    + cbn in HG. injection HG as HG. rewrite HG in R1. assert (R2 : nat_of_ascii cq = (48 + q)%nat) by (rewrite CQ; apply nat_ascii_embedding; lia). lia.
  - intros H. apply filter_In in H. destruct H as [_ H]. cbn [existsb] in H. rewrite orb_false_r in H.
    pose proof (contains_app "./" (partName x p) "") as C. assert (EN : forall s, s ++ "" = s) by (induction s as [|c s IH]; cbn; [auto|now rewrite IH]). rewrite EN in C. now rewrite C in H.
Qed.
Close Scope string_scope.

(** ** C41: sizes *)
(** The sizes of the subspaces on the processes of the output group: one list of [n] sizes for each of [P] processes. *)
Definition sizeTable (P n : nat) (t : list (list Z)) : Prop := length t = P /\ Forall (fun v => length v = n) t.
Lemma table_lengths : forall P n t, sizeTable P n t -> map (@length Z) t = repeat n P.
Proof. intros P n t [<- H]. induction H as [|v t Hv _ IH]; cbn [map length repeat]; [auto|now rewrite Hv, IH]. Qed.
Lemma table_nth : forall P n t r, sizeTable P n t -> (r < P)%nat -> length (nth r t []) = n.
Proof. intros P n t r [<- H] Hr. rewrite Forall_forall in H. apply H. now apply nth_In. Qed.
Lemma table_small : forall P n t, sizeTable P n t -> Z.of_nat n < 2 ^ 31 -> smallData t.
Proof. intros P n t [_ H] Hn. unfold smallData. eapply Forall_impl; [|exact H]. intros v ->. auto. Qed.
Lemma table_reads : forall P n t, (1 <= n)%nat -> sizeTable P n t -> sameReads n t.
Proof. intros P n t Hn [_ H] v w Hv Hw. rewrite Forall_forall in H. now rewrite (H v Hv), (H w Hw). Qed.

(** How many systems hold a subspace. *)
Definition holders (sizes : list Z) : nat := length (filter (fun x => negb (x =? 0)) sizes).
(** All systems that hold it agree on its size [s]. *)
Definition agreed (s : Z) (sizes : list Z) : Prop := 0 < s /\ Forall (fun x => x = 0 \/ x = s) sizes.

(** Two systems, by files: every process of the output group keeps a subspace iff both systems hold it, with its size. [other] was written by the other
    system in any order of arrival into a file of any history that is not longer. *)
Theorem C41_two_systems : forall P n own other old order, (1 <= n)%nat -> Z.of_nat n < 2 ^ 31 -> sizeTable P n own -> sizeTable P n other ->
  Permutation order (seq 0 P) -> (length (openToWrite old false) <= n * P)%nat ->
  exists res, reduceExtraSizes n [Some (writeValues 0 old false other order)] own = Some res /\ sizeTable P n res /\
    forall r i s, (r < P)%nat -> (i < n)%nat -> agreed s [at2 0 own r i; at2 0 other r i] ->
      at2 0 res r i = if (2 <=? holders [at2 0%Z own r i; at2 0%Z other r i])%nat then s else 0.
Proof.
  intros P n own other old order Hn HS TO TR HP HL. pose proof (table_lengths _ _ _ TO) as LO. pose proof (table_lengths _ _ _ TR) as LR.
  assert (LC : length (concat other) = (n * P)%nat). { destruct TR as [L F]. rewrite <- L. clear - F. induction F as [|v t Hv _ IH]; cbn [concat length]; [lia|]. rewrite app_length, IH. lia. }
  exists (map2 (map2 Z.min) other own). assert (LEQ : map (@length Z) other = map (@length Z) own) by congruence. split; [|split].
  - unfold reduceExtraSizes. rewrite C37_file_contents; [|eapply table_small; eauto|now rewrite (proj1 TR)|rewrite LC; auto].
    rewrite (readReduce_eq 0); [|auto|eapply table_small; eauto|auto|].
    + now rewrite (proj2 (sameReadsb_spec _ _) (table_reads _ _ _ Hn TO)).
    + intros v Hv. destruct TO as [_ F]. rewrite Forall_forall in F. rewrite (F v Hv). rewrite numReads_last; lia.
  - pose proof (lengths_map2 Z Z.min _ _ LEQ) as LM. rewrite LO in LM. split.
    + rewrite <- (map_length (@length Z)), LM. apply repeat_length.
    + apply Forall_forall. intros v Hv. apply (in_map (@length Z)) in Hv. rewrite LM in Hv. now apply repeat_spec in Hv.
  - intros r i s Hr Hi [Hs HA]. rewrite at2_map2; [|auto|now rewrite (proj1 TO)|now rewrite (table_nth _ _ _ _ TO Hr)].
    inversion HA as [|x l A1 A2]; subst. inversion A2 as [|y l B1 _]; subst. unfold holders. cbn [filter].
    destruct A1 as [->| ->], B1 as [->| ->]; rewrite ?Z.eqb_refl; try destruct (Z.eqb_spec s 0); try lia; cbn; lia.
Qed.

Lemma moreThanOne_spec : forall s a b c, agreed s [a; b; c] -> 3 * s < 2 ^ 32 -> moreThanOne a b c = if (2 <=? holders [a; b; c])%nat then s else 0.
Proof.
  intros s a b c [Hs HA] HB. inversion HA as [|x l A1 A2]; subst. inversion A2 as [|y l B1 B2]; subst. inversion B2 as [|z l C1 _]; subst. unfold holders, moreThanOne. cbn [filter].
  destruct A1 as [->| ->], B1 as [->| ->], C1 as [->| ->]; rewrite ?Z.eqb_refl; try destruct (Z.eqb_spec s 0); try lia; rewrite Z.mod_small by lia; cbn [negb length Nat.leb];
    match goal with |- context [?x >? ?y] => destruct (Z.gtb_spec x y) end; lia.
Qed.

Lemma readReduce2_eq : forall op P n w1 w2 own, (1 <= n)%nat -> Z.of_nat n < 2 ^ 31 -> sizeTable P n own -> sizeTable P n w1 -> sizeTable P n w2 ->
  exists res, readReduceValues2 1 op (Some (concat w1)) (Some (concat w2)) n own = Some res /\ sizeTable P n res /\
    forall r i, (r < P)%nat -> (i < n)%nat -> at2 0 res r i = op (at2 0 w1 r i) (at2 0 own r i) (at2 0 w2 r i).
Proof.
  intros op P n w1 w2 own Hn HS TO T1 T2. pose proof (table_lengths _ _ _ TO) as LO. pose proof (table_lengths _ _ _ T1) as L1. pose proof (table_lengths _ _ _ T2) as L2.
  assert (E1 : map (@length Z) w1 = map (@length Z) own) by congruence. assert (E2 : map (@length Z) w2 = map (@length Z) own) by congruence.
  set (F := fun r => map2 (fun a bc => op a (fst bc) (snd bc)) (nth r w1 []) (combine (nth r own []) (nth r w2 []))).
  assert (LF : forall r, (r < P)%nat -> length (F r) = n).
  { intros r Hr. unfold F. pose proof (table_nth _ _ _ _ TO Hr). pose proof (table_nth _ _ _ _ T1 Hr). pose proof (table_nth _ _ _ _ T2 Hr). rewrite map2_length; rewrite ?combine_length; lia. }
  exists (map F (seq 0 P)). unfold readReduceValues2, checkFileSize. destruct (lengths_total _ _ E1) as [_ ->]. destruct (lengths_total _ _ E2) as [_ ->]. rewrite Nat.eqb_refl. cbn [andb].
  split; [|split].
  - apply sequenceO_Some. rewrite (proj1 TO), map_map. apply map_ext_in. intros r Hr. apply in_seq in Hr. destruct (lengths_pos _ _ r E1) as [P1 N1]. destruct (lengths_pos _ _ r E2) as [P2 N2].
    pose proof (slot_end w1 r ltac:(rewrite (proj1 T1); lia)) as S1. pose proof (slot_end w2 r ltac:(rewrite (proj1 T2); lia)) as S2.
    rewrite reduceLoop2_eq; [|rewrite (table_nth _ _ _ _ TO); lia|lia|rewrite (table_nth _ _ _ _ TO); lia|lia|lia]. unfold F.
    rewrite <- P1 at 1. rewrite <- N1 at 1. rewrite slot_slice by (rewrite (proj1 T1); lia). rewrite <- P2. rewrite <- N2. rewrite slot_slice by (rewrite (proj1 T2); lia). reflexivity.
  - split; [now rewrite map_length, seq_length|]. apply Forall_forall. intros v Hv. apply in_map_iff in Hv. destruct Hv as (r & <- & Hr). apply in_seq in Hr. apply LF. lia.
  - intros r i Hr Hi. unfold at2. rewrite nth_map_seq by auto. unfold F.
    pose proof (table_nth _ _ _ _ TO Hr). pose proof (table_nth _ _ _ _ T1 Hr). pose proof (table_nth _ _ _ _ T2 Hr).
    rewrite (map2_nth _ _ _ _ _ _ i 0 (0, 0) 0) by (rewrite ?combine_length; lia). rewrite combine_nth by lia. reflexivity.
Qed.

(** Three systems: kept iff at least two hold it. Missing: sizes of 2^32/3 and more (the sum of three uint32 wraps). *)
Theorem C41_three_systems_partial : forall P n own other1 other2 old1 old2 order1 order2, (1 <= n)%nat -> Z.of_nat n < 2 ^ 31 ->
  sizeTable P n own -> sizeTable P n other1 -> sizeTable P n other2 -> Permutation order1 (seq 0 P) -> Permutation order2 (seq 0 P) ->
  (length (openToWrite old1 false) <= n * P)%nat -> (length (openToWrite old2 false) <= n * P)%nat ->
  exists res, reduceExtraSizes n [Some (writeValues 0 old1 false other1 order1); Some (writeValues 0 old2 false other2 order2)] own = Some res /\ sizeTable P n res /\
    forall r i s, (r < P)%nat -> (i < n)%nat -> agreed s [at2 0 own r i; at2 0 other1 r i; at2 0 other2 r i] -> 3 * s < 2 ^ 32 ->
      at2 0 res r i = if (2 <=? holders [at2 0%Z own r i; at2 0%Z other1 r i; at2 0%Z other2 r i])%nat then s else 0.
Proof.
  intros P n own w1 w2 old1 old2 order1 order2 Hn HS TO T1 T2 P1 P2 L1 L2.
  assert (LC : forall t, sizeTable P n t -> length (concat t) = (n * P)%nat). { intros t [L F]. rewrite <- L. clear - F. induction F as [|v t Hv _ IH]; cbn [concat length]; [lia|]. rewrite app_length, IH. lia. }
  unfold reduceExtraSizes. rewrite !C37_file_contents; try (eapply table_small; eauto); try (rewrite (LC _ T1); auto); try (rewrite (LC _ T2); auto); try (now rewrite (proj1 T1)); try (now rewrite (proj1 T2)).
  destruct (readReduce2_eq moreThanOne P n w1 w2 own Hn HS TO T1 T2) as (res & -> & TR & HV). exists res. split; auto. split; auto.
  intros r i s Hr Hi HA HB. rewrite HV by auto. rewrite (moreThanOne_spec s); auto.
  - unfold holders. cbn [filter]. destruct (at2 0 own r i =? 0), (at2 0 w1 r i =? 0), (at2 0 w2 r i =? 0); reflexivity.
  - destruct HA as [H0 HA]. split; auto. inversion HA as [|x l A1 A2]; subst. inversion A2 as [|y l B1 B2]; subst. constructor; auto.
Qed.
(** All three systems keep the same subspaces, whatever the sizes: the function does not depend on the order. *)
Theorem C41_three_agree : forall a b c, moreThanOne a b c = moreThanOne b a c /\ moreThanOne a b c = moreThanOne a c b.
Proof.
  intros a b c. unfold moreThanOne. replace (b + a + c) with (a + b + c) by lia. replace (a + c + b) with (a + b + c) by lia.
  replace (Z.max b (Z.max a c)) with (Z.max a (Z.max b c)) by lia. replace (Z.max a (Z.max c b)) with (Z.max a (Z.max b c)) by lia. auto.
Qed.
(** A subspace of 2^31 values on each of two systems (and none on the third) is dropped. *)
Theorem C41_three_systems_refuted : exists s a b c, agreed s [a; b; c] /\ s < 2 ^ 32 /\ (2 <= holders [a; b; c])%nat /\ moreThanOne a b c = 0.
Proof. exists (2 ^ 31), (2 ^ 31), (2 ^ 31), 0. split; [split; [lia|repeat constructor; lia]|]. split; [lia|]. split; [|reflexivity]. apply Nat.leb_le. reflexivity. Qed.

(** A system holds what one of its groups holds. *)
Theorem C41_system_sizes : forall n groups sizes i s, (i < n)%nat -> 0 < s -> (forall g, (g < groups)%nat -> nth i (sizes g) 0 = 0 \/ nth i (sizes g) 0 = s) ->
  (nth i (systemSizes n groups sizes) 0 = s <-> exists g, (g < groups)%nat /\ nth i (sizes g) 0 = s) /\
  (nth i (systemSizes n groups sizes) 0 = 0 <-> forall g, (g < groups)%nat -> nth i (sizes g) 0 = 0).
Proof.
  intros n groups sizes i s Hi Hs HA. assert (E : nth i (systemSizes n groups sizes) 0 = maxSize groups sizes (Z.of_nat i)).
  { unfold systemSizes. rewrite (nth_indep _ 0 (maxSize groups sizes 0)) by (rewrite map_length, zrange_length; lia). rewrite map_nth. f_equal.
    unfold zrange. replace (Z.to_nat (Z.of_nat n - 0)) with n by lia. rewrite zseq_nth by lia. lia. }
  rewrite E. unfold maxSize. rewrite Nat2Z.id.
  assert (G : forall k m, (k <= groups)%nat -> (m = 0 \/ m = s) -> let x := fold_left (fun m r => Z.max m (nth i (sizes r) 0)) (seq 0 k) m in
     (x = 0 \/ x = s) /\ (x = s <-> m = s \/ exists g, (g < k)%nat /\ nth i (sizes g) 0 = s)).
  { induction k as [|k IH]; intros m Hk Hm; cbv zeta.
    - cbn. split; auto. split; auto. intros [H|(g & H & _)]; [auto|lia].
    - rewrite seq_S, fold_left_app. cbn [fold_left Nat.add]. destruct (IH m ltac:(lia) Hm) as [I1 I2]. cbv zeta in I1, I2. set (x := fold_left _ (seq 0 k) m) in *. clearbody x.
      pose proof (HA k ltac:(lia)) as HK. split; [lia|]. split.
      + intros H. destruct (Z.eq_dec x s) as [Ex|Nx]. { apply I2 in Ex. destruct Ex as [|(g & Hg & Ex)]; [auto|right; exists g; split; [lia|auto]]. } right. exists k. split; lia.
      + intros [H|(g & Hg & H)]. { assert (x = s) by (apply I2; auto). lia. } destruct (Nat.eq_dec g k) as [->|N]; [lia|]. assert (x = s) by (apply I2; right; exists g; split; [lia|auto]). lia. }
  destruct (G groups 0 (le_n _) (or_introl eq_refl)) as [G1 G2]. cbv zeta in G1, G2. set (x := fold_left _ (seq 0 groups) 0) in *. clearbody x. split.
  - rewrite G2. split; [intros [H|H]; [lia|auto]|auto].
  - split.
    + intros H g Hg. destruct (HA g Hg) as [|H2]; auto. assert (x = s) by (apply G2; eauto). lia.
    + intros H. destruct G1 as [|G1]; auto. apply G2 in G1. destruct G1 as [|(g & Hg & E2)]; [lia|]. rewrite (H g Hg) in E2. lia.
Qed.

(** The combined sparse grid of the output group afterwards holds what it or the exchange holds. *)
Theorem C41_enlarged : forall combined extra i s, length combined = length extra -> (i < length combined)%nat -> agreed s [nth i combined 0; nth i extra 0] ->
  nth i (enlargedSizes combined extra) 0 = if (1 <=? holders [nth i combined 0%Z; nth i extra 0%Z])%nat then s else 0.
Proof.
  intros combined extra i s HL Hi [Hs HA]. unfold enlargedSizes. rewrite (map2_nth _ _ _ _ _ _ i 0 0 0) by lia.
  inversion HA as [|x l A1 A2]; subst. inversion A2 as [|y l B1 _]; subst. unfold holders. cbn [filter].
  destruct A1 as [->| ->], B1 as [->| ->]; rewrite ?Z.eqb_refl; try destruct (Z.eqb_spec s 0); try lia; cbn; lia.
Qed.

(** The managers of two systems: with an extra sparse grid what both hold, otherwise what one holds; and both managers compute the same. *)
Theorem C41_managers : forall extra a b, length a = length b ->
  managerSizes extra a b = managerSizes extra b a /\
  forall i s, (i < length a)%nat -> agreed s [nth i a 0; nth i b 0] ->
    nth i (managerSizes extra a b) 0 = if ((if extra then 2 else 1) <=? holders [nth i a 0%Z; nth i b 0%Z])%nat then s else 0.
Proof.
  intros extra a b HL. split.
  - unfold managerSizes. revert b HL. induction a as [|x a IH]; intros [|y b] HL; cbn in *; try discriminate; auto. rewrite (IH b) by lia. f_equal. destruct extra; lia.
  - intros i s Hi [Hs HA]. unfold managerSizes. rewrite (map2_nth _ _ _ _ _ _ i 0 0 0) by lia.
    inversion HA as [|x l A1 A2]; subst. inversion A2 as [|y l B1 _]; subst. unfold holders. cbn [filter].
    destruct extra, A1 as [->| ->], B1 as [->| ->]; rewrite ?Z.eqb_refl; try destruct (Z.eqb_spec s 0); try lia; cbn; lia.
Qed.

Lemma zsum_nonneg : forall l, Forall (fun s => 0 <= s) l -> 0 <= zsum l.
Proof. induction 1 as [|y m H _ IH]; unfold zsum in *; cbn [fold_right]; lia. Qed.
Lemma accumulate_small : forall l acc, 0 <= acc -> Forall (fun s => 0 <= s) l -> acc + zsum l < 2 ^ 31 -> fold_left (fun a s => i32 (a + s)) l acc = acc + zsum l.
Proof.
  induction l as [|x l IH]; intros acc HA HF HS; cbn [fold_left]; [change (zsum []) with 0; lia|]; unfold zsum in *; cbn [fold_right] in *. change (fold_right Z.add 0 l) with (zsum l) in *. inversion HF as [|y m HX HF2]; subst.
  pose proof (zsum_nonneg l HF2).
  assert (E : i32 (acc + x) = acc + x) by (unfold i32; rewrite Z.mod_small by lia; lia). rewrite E. rewrite IH; auto; lia.
Qed.
(** The manager knows how many values every worker will send, up to 2^31-1 values per worker. Missing: more (the sum is computed in int). *)
Theorem C41_manager_counts_partial : forall tables, Forall (fun t => Forall (fun s => 0 <= s) t /\ zsum t < 2 ^ 31) tables ->
  sizesPerWorker (map (@length Z) tables) (concat tables) = map zsum tables.
Proof.
  intros tables H. induction H as [|t tables [H1 H2] _ IH]; cbn [map concat sizesPerWorker]; auto. rewrite firstn_app, Nat.sub_diag, firstn_O, app_nil_r, firstn_all. rewrite skipn_app, Nat.sub_diag, skipn_O, skipn_all.
  cbn [app]. rewrite IH. f_equal. unfold accumulateInt. rewrite accumulate_small by (auto; lia). cbn [Z.add]. apply Z.mod_small.
  pose proof (zsum_nonneg t H1). lia.
Qed.
Theorem C41_manager_counts_refuted : exists tables, Forall (Forall (fun s => 0 <= s < 2 ^ 32)) tables /\ zsum (concat tables) = 2 ^ 31 /\
  sizesPerWorker (map (@length Z) tables) (concat tables) = [2 ^ 64 - 2 ^ 31].
Proof. exists [[2 ^ 30; 2 ^ 30]]. split; [repeat constructor; lia|]. split; reflexivity. Qed.

(** Examples: two systems that wrote to two processes; the tokens of three systems, the second one first. *)
Example exWritten (i : nat) : list (list Qc) := [[Q2Qc (inject_Z (Z.of_nat i)); 1%Qc]; [Q2Qc (1 # 2)]].
Example exQuery : oracle := fun t i => (Nat.ltb 4 t || Nat.eqb i 1)%bool.
Example C40_example : (forall i, map (@length Qc) (exWritten i) = map (@length Qc) (exWritten 7)) /\ smallData (exWritten 7) /\ sameReads 2 (exWritten 7) /\
  (forall t i, (5 <= t)%nat -> (i < 3)%nat -> exQuery t i = true) /\
  option_map (fun x => (fst x, map (map this) (snd x))) (readReduce Qcplus (fun i => Some (concat (exWritten i))) 2 false exQuery 8 3 (exWritten 7))
  = Some ([1; 2; 0]%nat, [[10 # 1; 4 # 1]; [2 # 1]])%Q.
Proof.
  split; [reflexivity|]. split; [unfold smallData; repeat constructor; cbn; lia|]. split; [now apply sameReadsb_spec|].
  split; [intros t i H _; unfold exQuery; now rewrite (proj2 (Nat.ltb_lt 4 t)) by lia|]. vm_compute. reflexivity.
Qed.
Example C40_remove_example : removeReadingFiles ["dsg_1"%string] 1 ["dsg_1_0.part0"; "dsg_1_0.part1"; "dsg_1_0.part2"; "dsg_1_0.part12"]%string = ["dsg_1_0.part0"; "dsg_1_0.part2"]%string.
Proof. reflexivity. Qed.
Example C41_two_example : reduceExtraSizes 3 [Some (writeValues 0 None false [[4; 0; 2]; [3; 0; 1]] [1; 0]%nat)] [[4; 6; 0]; [3; 5; 1]] = Some [[4; 0; 0]; [3; 0; 1]].
Proof. reflexivity. Qed.
Example C41_three_example : reduceExtraSizes 3 [Some (concat [[4; 0; 2]; [3; 0; 1]]); Some (concat [[0; 6; 0]; [3; 0; 1]])] [[4; 6; 0]; [0; 5; 1]] = Some [[4; 6; 0]; [3; 0; 1]].
Proof. reflexivity. Qed.
Example C41_agreed_example : agreed 6 [6; 0; 6] /\ 3 * 6 < 2 ^ 32 /\ systemSizes 3 2 (fun g => if Nat.eqb g 0 then [4; 0; 0] else [4; 0; 2]) = [4; 0; 2] /\
  enlargedSizes [4; 0; 0] [4; 0; 2] = [4; 0; 2] /\ managerSizes true [4; 0; 2] [4; 5; 0] = [4; 0; 0] /\ managerSizes false [4; 0; 2] [4; 5; 0] = [4; 5; 2] /\
  sizesPerWorker [2; 1]%nat [4; 5; 2] = [9; 2].
Proof. repeat split; try reflexivity; try lia. repeat constructor; lia. Qed.
Print Assumptions C40_exactly_once.
Print Assumptions C40_sum_partial.
Print Assumptions C40_ends_partial.
Print Assumptions C40_overwrite_refuted.
Print Assumptions C40_remove_refuted.
Print Assumptions C40_remove_partial.
Print Assumptions C41_two_systems.
Print Assumptions C41_three_systems_partial.
Print Assumptions C41_three_agree.
Print Assumptions C41_three_systems_refuted.
Print Assumptions C41_system_sizes.
Print Assumptions C41_enlarged.
Print Assumptions C41_managers.
Print Assumptions C41_manager_counts_partial.
Print Assumptions C41_manager_counts_refuted.
