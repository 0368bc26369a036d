(** C37, C38, C39: files written and read by all processes. *)
From Verif Require Import Base FileModel.
From Coq Require Import Permutation.
Open Scope Z_scope.
Ltac Zify.zify_post_hook ::= idtac.

Lemma toInt_small : forall n, 0 <= n < 2 ^ 31 -> toInt n = n.
Proof. intros n H. unfold toInt. rewrite Z.mod_small by lia. lia. Qed.

Lemma nth_skipn : forall (A : Type) (n : nat) (l : list A) i d, nth i (skipn n l) d = nth (n + i) l d.
Proof. intros A. induction n as [|n IH]; intros [|x l] i d; cbn [skipn Nat.add nth]; auto. now destruct i. Qed.

Lemma nth_map_seq : forall (B : Type) (F : nat -> B) n r d, (r < n)%nat -> nth r (map F (seq 0 n)) d = F r.
Proof. intros B F n r d H. rewrite (nth_indep _ d (F 0%nat)) by (rewrite map_length, seq_length; auto). now rewrite map_nth, seq_nth. Qed.

Section P.
Context {A : Type} (zero : A).
Implicit Types (f vals : list A) (data : list (list A)).

Lemma writeAt_length : forall f pos vals, vals <> [] -> length (writeAt zero f pos vals) = Nat.max (length f) (pos + length vals).
Proof.
  intros f pos vals H. unfold writeAt. destruct vals as [|v vs]; [congruence|]. rewrite !app_length, firstn_length, skipn_length, app_length, repeat_length. lia.
Qed.
Lemma writeAt_nth : forall f pos vals i, nth i (writeAt zero f pos vals) zero =
  if ((pos <=? i) && (i <? pos + length vals))%nat then nth (i - pos) vals zero else nth i f zero.
Proof.
  intros f pos vals i. unfold writeAt. destruct vals as [|v vs].
  { cbn [length]. destruct (Nat.leb_spec pos i), (Nat.ltb_spec i (pos + 0)); cbn [andb]; auto; lia. }
  set (w := v :: vs). assert (LF : length (firstn pos (f ++ repeat zero (pos - length f))) = pos) by (rewrite firstn_length, app_length, repeat_length; lia).
  destruct (Nat.leb_spec pos i) as [H1|H1]; cbn [andb].
  - rewrite app_nth2; rewrite LF; [|lia]. destruct (Nat.ltb_spec i (pos + length w)) as [H2|H2].
    + now rewrite app_nth1 by lia.
    + rewrite app_nth2 by lia. rewrite nth_skipn. f_equal. lia.
  - rewrite app_nth1 by lia.
    assert (E : nth i (f ++ repeat zero (pos - length f)) zero = nth i f zero).
    { destruct (Nat.lt_ge_cases i (length f)) as [H|H]; [now rewrite app_nth1|]. rewrite app_nth2, nth_repeat by lia. symmetry. now apply nth_overflow. }
    rewrite <- E. rewrite <- (firstn_skipn pos (f ++ repeat zero (pos - length f))) at 2. now rewrite app_nth1 by lia.
Qed.

Lemma data_split : forall data r, (r < length data)%nat -> concat data = concat (firstn r data) ++ nth r data [] ++ concat (skipn (S r) data).
Proof.
  intros data r H. rewrite <- (firstn_skipn r data) at 1. rewrite concat_app. f_equal.
  revert r H. induction data as [|x data IH]; intros r H; [simpl in H; lia|]. destruct r; [reflexivity|]. cbn [skipn nth]. apply IH. simpl in H. lia.
Qed.
Lemma slot_nth : forall data r j, (r < length data)%nat -> (j < length (nth r data []))%nat -> nth (filePosition data r + j) (concat data) zero = nth j (nth r data []) zero.
Proof. intros data r j Hr Hj. rewrite (data_split data r Hr). unfold filePosition. rewrite app_nth2 by lia. rewrite app_nth1 by lia. f_equal. lia. Qed.
Lemma slot_end : forall data r, (r < length data)%nat -> (filePosition data r + length (nth r data []) <= length (concat data))%nat.
Proof. intros data r Hr. pose proof (f_equal (@length A) (data_split data r Hr)) as E. rewrite !app_length in E. unfold filePosition. lia. Qed.
Lemma slot_slice : forall data r, (r < length data)%nat -> firstn (length (nth r data [])) (skipn (filePosition data r) (concat data)) = nth r data [].
Proof.
  intros data r Hr. rewrite (data_split data r Hr). unfold filePosition. rewrite skipn_app, Nat.sub_diag, skipn_O, skipn_all. cbn [app].
  rewrite firstn_app, Nat.sub_diag, firstn_O, firstn_all, app_nil_r. reflexivity.
Qed.
Lemma slot_cover : forall data i, (i < length (concat data))%nat -> exists r, (r < length data)%nat /\ (filePosition data r <= i < filePosition data r + length (nth r data []))%nat.
Proof.
  induction data as [|x data IH]; intros i Hi; [simpl in Hi; lia|]. cbn [concat] in Hi. rewrite app_length in Hi.
  destruct (Nat.lt_ge_cases i (length x)) as [H|H].
  - exists 0%nat. cbn. lia.
  - destruct (IH (i - length x)%nat ltac:(lia)) as (r & Hr & HB). exists (S r). unfold filePosition in *. cbn [firstn concat nth]. rewrite app_length. cbn [length]. lia.
Qed.

Definition smallData data : Prop := Forall (fun v => Z.of_nat (length v) < 2 ^ 31) data.
Lemma small_nth : forall data r, smallData data -> Z.of_nat (length (nth r data [])) < 2 ^ 31.
Proof.
  intros data r H. destruct (Nat.lt_ge_cases r (length data)) as [L|L]; [|rewrite nth_overflow by auto; reflexivity].
  unfold smallData in H. rewrite Forall_forall in H. apply H. now apply nth_In.
Qed.
Lemma writeValuesAt_small : forall f vals pos, Z.of_nat (length vals) < 2 ^ 31 -> writeValuesAt zero f vals pos = (writeAt zero f pos vals, Z.of_nat (length vals)).
Proof.
  intros f vals pos H. unfold writeValuesAt. rewrite toInt_small by lia. destruct (Z.ltb_spec (Z.of_nat (length vals)) 0); [lia|]. now rewrite Nat2Z.id, firstn_all.
Qed.
Lemma readValuesAt_small : forall f n pos, Z.of_nat n < 2 ^ 31 -> readValuesAt f n pos = firstn n (skipn pos f).
Proof. intros f n pos H. unfold readValuesAt. rewrite toInt_small by lia. destruct (Z.ltb_spec (Z.of_nat n) 0); [lia|]. now rewrite Nat2Z.id. Qed.

(** The file after all parts arrived, whatever was in it before. *)
Lemma write_contents : forall old replace data order, smallData data -> Permutation order (seq 0 (length data)) ->
  let f0 := openToWrite old replace in
  writeValues zero old replace data order = concat data ++ skipn (length (concat data)) f0.
Proof.
  intros old replace data order HS HP f0. unfold writeValues. fold f0.
  set (step := fun f r => fst (writeValuesAt zero f (nth r data []) (filePosition data r))).
  assert (G : forall os f, (forall r, In r os -> (r < length data)%nat) ->
     let f' := fold_left step os f in
     (length f <= length f' <= Nat.max (length f) (length (concat data)))%nat /\
     (forall r, In r os -> nth r data [] <> [] -> (filePosition data r + length (nth r data []) <= length f')%nat) /\
     (forall i, (exists r, In r os /\ (filePosition data r <= i < filePosition data r + length (nth r data []))%nat) \/ nth i f zero = nth i (concat data) zero -> nth i f' zero = nth i (concat data) zero) /\
     (forall i, (length (concat data) <= i)%nat -> nth i f' zero = nth i f zero)).
  { induction os as [|r os IH]; intros f HR; cbn [fold_left]; cbv zeta.
    - split; [lia|]. split; [intros ? []|]. split; auto. intros i [(r & [] & _)|]; auto.
    - set (f1 := step f r). pose proof (HR r (or_introl eq_refl)) as Hr. destruct (IH f1) as (I1 & I2 & I3 & I4); [intros; apply HR; now right|]. cbv zeta in I1, I2, I3, I4.
      assert (E1 : f1 = writeAt zero f (filePosition data r) (nth r data [])) by (unfold f1, step; rewrite writeValuesAt_small; auto; now apply small_nth).
      pose proof (slot_end data r Hr) as SE.
      assert (L1 : (length f <= length f1 <= Nat.max (length f) (length (concat data)))%nat /\ (nth r data [] <> [] -> (filePosition data r + length (nth r data []) <= length f1)%nat)).
      { rewrite E1. destruct (nth r data []) as [|v vs] eqn:EV; [cbn; split; [lia|congruence]|]. rewrite <- EV in *. rewrite writeAt_length by (rewrite EV; discriminate). split; lia. }
      split; [lia|]. split; [|split].
      + intros q [<-|Hq] HN; [destruct L1 as [_ L1]; specialize (L1 HN); lia|now apply I2].
      + intros i HC. apply I3. destruct HC as [(q & [<-|Hq] & HB)|E].
        * right. rewrite E1, writeAt_nth. destruct (Nat.leb_spec (filePosition data r) i); [|lia]. destruct (Nat.ltb_spec i (filePosition data r + length (nth r data []))); [|lia]. cbn [andb].
          rewrite <- (slot_nth data r (i - filePosition data r)) by (auto; lia). f_equal. lia.
        * left. eauto.
        * right. rewrite E1, writeAt_nth. destruct (Nat.leb_spec (filePosition data r) i); cbn [andb]; auto. destruct (Nat.ltb_spec i (filePosition data r + length (nth r data []))); auto.
          rewrite <- (slot_nth data r (i - filePosition data r)) by (auto; lia). f_equal. lia.
      + intros i Hi. rewrite I4 by auto. rewrite E1, writeAt_nth. destruct (Nat.ltb_spec i (filePosition data r + length (nth r data []))); [lia|]. now rewrite andb_false_r. }
  destruct (G order f0) as (G1 & G2 & G3 & G4). { intros r Hr. apply (Permutation_in _ HP) in Hr. apply in_seq in Hr. lia. }
  set (f' := fold_left step order f0) in *.
  assert (IN : forall r, (r < length data)%nat -> In r order). { intros r Hr. apply (Permutation_in _ (Permutation_sym HP)). apply in_seq. lia. }
  assert (LEN : length f' = Nat.max (length f0) (length (concat data))).
  { destruct (Nat.eq_dec (length (concat data)) 0) as [E|NE]; [lia|]. destruct (slot_cover data (length (concat data) - 1) ltac:(lia)) as (r & Hr & HB).
    assert (NN : nth r data [] <> []) by (intros E; rewrite E in HB; simpl in HB; lia). specialize (G2 r (IN r Hr) NN). lia. }
  apply (nth_ext _ _ zero zero). { rewrite app_length, skipn_length. lia. }
  intros i Hi. destruct (Nat.lt_ge_cases i (length (concat data))) as [H|H].
  - rewrite app_nth1 by auto. apply G3. left. destruct (slot_cover data i H) as (r & Hr & HB). exists r. auto.
  - rewrite app_nth2 by auto. rewrite nth_skipn. rewrite G4 by auto. f_equal. lia.
Qed.

(** ** C37 *)
(** After all processes have written their values to a new or replaced file, or over one that is not longer, the file holds them
    in the order of the ranks, whatever the order in which the parts arrive. *)
Theorem C37_file_contents : forall old replace data order, smallData data -> Permutation order (seq 0 (length data)) ->
  (length (openToWrite old replace) <= length (concat data))%nat -> writeValues zero old replace data order = concat data.
Proof. intros old replace data order HS HP HL. rewrite write_contents by auto. rewrite skipn_all2 by auto. apply app_nil_r. Qed.

(** Reading with the same numbers of values gives every process its values, whatever was in its memory. *)
Theorem C37_round_trip : forall old replace data order memory, smallData data -> Permutation order (seq 0 (length data)) ->
  (length (openToWrite old replace) <= length (concat data))%nat -> map (@length A) memory = map (@length A) data ->
  readValues (Some (writeValues zero old replace data order)) memory = Some data.
Proof.
  intros old replace data order memory HS HP HL HM. rewrite C37_file_contents by auto.
  assert (LM : length memory = length data) by (rewrite <- (map_length (@length A) memory), HM; apply map_length).
  assert (LN : forall r, length (nth r memory []) = length (nth r data [])).
  { intros r. rewrite <- (map_nth (@length A) memory []), <- (map_nth (@length A) data []), HM. reflexivity. }
  assert (LC : forall n, length (concat (firstn n memory)) = length (concat (firstn n data))).
  { intros n. assert (E : map (@length A) (firstn n memory) = map (@length A) (firstn n data)) by (rewrite <- !firstn_map; now rewrite HM).
    revert E. generalize (firstn n memory) (firstn n data). induction l as [|x l IH]; intros [|y l2] E; cbn [map] in E; try discriminate; auto.
    injection E as E1 E2. cbn [concat]. rewrite !app_length, (IH l2) by auto. lia. }
  unfold readValues, checkFileSize.
  assert (TOT : length (concat data) = length (concat memory)). { specialize (LC (length data)). rewrite firstn_all in LC. rewrite <- LM, firstn_all in LC. auto. }
  rewrite (proj2 (Nat.eqb_eq _ _) TOT). f_equal.
  apply (nth_ext _ _ [] []). { now rewrite map_length, seq_length. }
  intros r Hr. rewrite map_length, seq_length in Hr. rewrite nth_map_seq by auto. cbv zeta. rewrite LN. unfold filePosition. rewrite LC. change (length (concat (firstn r data))) with (filePosition data r).
  rewrite readValuesAt_small by now apply small_nth. rewrite slot_slice by lia. rewrite skipn_all2 by (rewrite LN; auto). apply app_nil_r.
Qed.

(** A process with 2^31 to 2^32-1 values writes nothing and reports 0: the count is cast to int. Missing in the round trip: such
    processes. *)
Theorem C37_large_part_refuted : forall f vals pos, 2 ^ 31 <= Z.of_nat (length vals) < 2 ^ 32 -> writeValuesAt zero f vals pos = (f, 0).
Proof.
  intros f vals pos H. unfold writeValuesAt, toInt. replace (Z.of_nat (length vals) + 2 ^ 31) with (Z.of_nat (length vals) - 2 ^ 31 + 1 * 2 ^ 32) by lia.
  rewrite Z.mod_add, Z.mod_small by lia. destruct (Z.ltb_spec (Z.of_nat (length vals) - 2 ^ 31 - 2 ^ 31) 0); [auto|lia].
Qed.

(** ** C38 *)
(** If the file exists, is longer and is not replaced, what was just written cannot be read: the file keeps its length and the
    check throws. *)
Theorem C38_shorter_refuted : forall f data order, smallData data -> Permutation order (seq 0 (length data)) ->
  (length (concat data) < length f)%nat ->
  length (writeValues zero (Some f) false data order) = length f /\ readValues (Some (writeValues zero (Some f) false data order)) data = None.
Proof.
  intros f data order HS HP HL. rewrite write_contents by auto. cbn [openToWrite].
  assert (E : length (concat data ++ skipn (length (concat data)) f) = length f) by (rewrite app_length, skipn_length; lia). split; auto.
  unfold readValues, checkFileSize. rewrite E. destruct (Nat.eqb_spec (length f) (length (concat data))); [lia|auto].
Qed.
(** Missing otherwise: files that exist and are longer. With replaceExistingFile every history is fine. *)
Theorem C38_replaced_partial : forall old data order, smallData data -> Permutation order (seq 0 (length data)) ->
  readValues (Some (writeValues zero old true data order)) data = Some data.
Proof. intros old data order HS HP. apply C37_round_trip; auto. destruct old; simpl; lia. Qed.

(** ** Reading with reduction *)
(** Number of collective reads of a process with [n] values. *)
Definition numReads (n buffer : nat) : nat := ((n + buffer - 1) / buffer)%nat.
Lemma numReads_0 : forall b, (1 <= b)%nat -> numReads 0 b = 0%nat.
Proof. intros b H. unfold numReads. apply Nat.div_small. lia. Qed.
Lemma numReads_last : forall n b, (1 <= n <= b)%nat -> numReads n b = 1%nat.
Proof. intros n b H. unfold numReads. symmetry. apply (Nat.div_unique _ _ _ (n - 1)); lia. Qed.
Lemma numReads_step : forall n b, (1 <= b < n)%nat -> numReads n b = S (numReads (n - b) b).
Proof. intros n b H. unfold numReads. replace (n + b - 1)%nat with (n - b + b - 1 + 1 * b)%nat by lia. rewrite Nat.div_add by lia. lia. Qed.

Lemma map2_app_l : forall (B C D : Type) (g : B -> C -> D) a1 a2 b1 b2, length a1 = length b1 -> map2 g (a1 ++ a2) (b1 ++ b2) = map2 g a1 b1 ++ map2 g a2 b2.
Proof. intros B C D g. induction a1 as [|x a1 IH]; intros a2 [|y b1] b2 H; cbn in H; try discriminate; auto. cbn. f_equal. apply IH. lia. Qed.
Lemma firstn_add : forall (B : Type) (l : list B) a b, firstn (a + b) l = firstn a l ++ firstn b (skipn a l).
Proof. intros B. induction l as [|x l IH]; intros [|a] b; cbn [Nat.add firstn skipn app]; auto. - now rewrite !firstn_nil. - f_equal. apply IH. Qed.
Lemma skipn_add : forall (B : Type) (l : list B) a b, skipn b (skipn a l) = skipn (a + b) l.
Proof. intros B. induction l as [|x l IH]; intros [|a] b; cbn [Nat.add skipn]; auto. now rewrite !skipn_nil. Qed.

Lemma reduceLoop_eq : forall op fuel f buffer pos done todo reads, (1 <= buffer)%nat -> Z.of_nat (length todo) < 2 ^ 31 -> (pos + length todo <= length f)%nat ->
  reduceLoop fuel op f buffer pos done todo reads =
  if (numReads (length todo) buffer <=? fuel)%nat
  then Some (done ++ map2 op (firstn (length todo) (skipn pos f)) todo, (reads + numReads (length todo) buffer)%nat) else None.
Proof.
  intros op. induction fuel as [|fuel IH]; intros f buffer pos done todo reads HB HS HF.
  - destruct todo as [|t todo].
    + cbn [length reduceLoop firstn map2]. rewrite numReads_0 by auto. cbn [Nat.leb]. now rewrite app_nil_r, Nat.add_0_r.
    + cbn [reduceLoop]. destruct (Nat.lt_ge_cases buffer (length (t :: todo))) as [L|L].
      * now rewrite numReads_step by lia.
      * rewrite numReads_last by (cbn [length] in *; lia). reflexivity.
  - destruct todo as [|t todo].
    + cbn [length reduceLoop firstn map2]. rewrite numReads_0 by auto. cbn [Nat.leb]. now rewrite app_nil_r, Nat.add_0_r.
    + set (l := t :: todo) in *. assert (PL : (1 <= length l)%nat) by (cbn; lia).
      assert (ST : reduceLoop (S fuel) op f buffer pos done l reads =
        let n := Nat.min buffer (length l) in let got := readValuesAt f n pos in
        reduceLoop fuel op f n (pos + length got) (done ++ map2 op got (firstn (length got) l)) (skipn (length got) l) (S reads)) by reflexivity.
      rewrite ST. cbv zeta. clear ST. clearbody l. set (n := Nat.min buffer (length l)).
      assert (Hn : n = Nat.min buffer (length l)) by reflexivity. clearbody n.
      rewrite readValuesAt_small by lia.
      assert (GL : length (firstn n (skipn pos f)) = n) by (rewrite firstn_length, skipn_length; lia). rewrite !GL.
      rewrite IH by (try rewrite skipn_length; lia). rewrite !skipn_length.
      assert (EV : (done ++ map2 op (firstn n (skipn pos f)) (firstn n l)) ++ map2 op (firstn (length l - n) (skipn (pos + n) f)) (skipn n l)
                   = done ++ map2 op (firstn (length l) (skipn pos f)) l).
      { rewrite <- app_assoc. f_equal. rewrite <- (map2_app_l _ _ _ op) by (rewrite GL, firstn_length; lia). rewrite firstn_skipn. f_equal.
        rewrite <- skipn_add, <- firstn_add. f_equal. lia. }
      rewrite EV. destruct (Nat.lt_ge_cases buffer (length l)) as [L|L].
      * assert (E : n = buffer) by lia. rewrite E. rewrite (numReads_step (length l)) by lia. cbn [Nat.leb]. now rewrite Nat.add_succ_comm.
      * assert (E : n = length l) by lia. rewrite E, Nat.sub_diag. rewrite (numReads_0 (length l)) by lia. rewrite (numReads_last (length l)) by lia.
        cbn [Nat.leb]. destruct fuel; now rewrite Nat.add_0_r, Nat.add_1_r.
Qed.

Lemma reduceLoop_zero : forall op fuel f pos done todo reads, todo <> [] -> reduceLoop fuel op f 0 pos done todo reads = None.
Proof.
  intros op. induction fuel as [|fuel IH]; intros f pos done todo reads H; destruct todo as [|t todo]; try congruence; [reflexivity|].
  cbn [reduceLoop Nat.min]. assert (E : readValuesAt f 0 pos = []) by reflexivity. rewrite E. cbn [length skipn]. now apply IH.
Qed.

Lemma sequenceO_Some : forall (B : Type) (l : list (option B)) r, sequenceO l = Some r <-> l = map Some r.
Proof.
  intros B. induction l as [|x l IH]; intros r; cbn.
  - split; [now intros [= <-]|]. destruct r; [auto|discriminate].
  - specialize (fun r => proj1 (IH r)) as I1. specialize (fun r => proj2 (IH r)) as I2.
    destruct x as [b|]; [|split; [discriminate|destruct r; discriminate]]. fold (sequenceO l). destruct (sequenceO l) as [rs|].
    + split; [intros [= <-]; cbn; f_equal; now apply I1|]. destruct r as [|y r]; cbn; [discriminate|]. intros [= <- E]. apply I2 in E. now injection E as ->.
    + split; [discriminate|]. destruct r as [|y r]; cbn; [discriminate|]. intros [= <- E]. apply I2 in E. discriminate.
Qed.
Lemma sequenceO_None : forall (B : Type) (l : list (option B)), In None l -> sequenceO l = None.
Proof. intros B l H. destruct (sequenceO l) as [r|] eqn:E; auto. apply sequenceO_Some in E. subst. apply in_map_iff in H. destruct H as (x & H & _). discriminate. Qed.

(** All processes need the same number of reads. *)
Definition sameReads (buffer : nat) data : Prop := forall v w, In v data -> In w data -> numReads (length v) buffer = numReads (length w) buffer.
Definition sameReadsb (buffer : nat) data : bool := forallb (fun v => forallb (fun w => Nat.eqb (numReads (length v) buffer) (numReads (length w) buffer)) data) data.
Lemma sameReadsb_spec : forall buffer data, sameReadsb buffer data = true <-> sameReads buffer data.
Proof.
  intros buffer data. unfold sameReadsb, sameReads. rewrite forallb_forall. split.
  - intros H v w Hv Hw. specialize (H v Hv). rewrite forallb_forall in H. apply Nat.eqb_eq. now apply H.
  - intros H v Hv. apply forallb_forall. intros w Hw. apply Nat.eqb_eq. now apply H.
Qed.

Lemma lengths_pos : forall d1 d2 r, map (@length A) d1 = map (@length A) d2 -> filePosition d1 r = filePosition d2 r /\ length (nth r d1 []) = length (nth r d2 []).
Proof.
  intros d1 d2 r H. split.
  - unfold filePosition. assert (E : map (@length A) (firstn r d1) = map (@length A) (firstn r d2)) by (rewrite <- !firstn_map; now rewrite H).
    revert E. generalize (firstn r d1) (firstn r d2). induction l as [|x l IH]; intros [|y l2] E; cbn [map] in E; try discriminate; auto.
    injection E as E1 E2. cbn [concat]. rewrite !app_length, (IH l2) by auto. lia.
  - rewrite <- (map_nth (@length A) d1 []), <- (map_nth (@length A) d2 []), H. reflexivity.
Qed.
Lemma lengths_total : forall d1 d2, map (@length A) d1 = map (@length A) d2 -> length d1 = length d2 /\ length (concat d1) = length (concat d2).
Proof.
  intros d1 d2 H. assert (L : length d1 = length d2) by (rewrite <- (map_length (@length A) d1), H; apply map_length). split; auto.
  destruct (lengths_pos d1 d2 (length d1) H) as [E _]. unfold filePosition in E. rewrite firstn_all in E. now rewrite L, firstn_all in E.
Qed.

(** With enough fuel and a buffer, exactly the matching number of reads decides. *)
Lemma readReduce_eq : forall op fuel written buffer data, (1 <= buffer)%nat -> smallData data -> map (@length A) written = map (@length A) data ->
  (forall v, In v data -> (numReads (length v) buffer <= fuel)%nat) ->
  readReduceValues fuel op (Some (concat written)) buffer data = if sameReadsb buffer data then Some (map2 (map2 op) written data) else None.
Proof.
  intros op fuel written buffer data HB HS HL HF. unfold readReduceValues, checkFileSize. destruct (lengths_total _ _ HL) as [LD LT]. rewrite LT, Nat.eqb_refl.
  assert (EM : map (fun r => reduceLoop fuel op (concat written) buffer (filePosition data r) [] (nth r data []) 0) (seq 0 (length data))
             = map Some (map (fun r => (map2 op (nth r written []) (nth r data []), numReads (length (nth r data [])) buffer)) (seq 0 (length data)))).
  { rewrite map_map. apply map_ext_in. intros r Hr. apply in_seq in Hr. destruct (lengths_pos _ _ r HL) as [LP LN]. rewrite <- LP.
    pose proof (slot_end written r ltac:(lia)) as SE.
    rewrite reduceLoop_eq; [|auto|now apply small_nth|lia]. rewrite (proj2 (Nat.leb_le _ _)) by (apply HF, nth_In; lia).
    rewrite <- LN, slot_slice by lia. reflexivity. }
  rewrite EM. rewrite (proj2 (sequenceO_Some _ _ _) eq_refl).
  assert (EB : forallb (fun x : list A * nat => forallb (fun y => Nat.eqb (snd x) (snd y)) (map (fun r => (map2 op (nth r written []) (nth r data []), numReads (length (nth r data [])) buffer)) (seq 0 (length data))))
                 (map (fun r => (map2 op (nth r written []) (nth r data []), numReads (length (nth r data [])) buffer)) (seq 0 (length data))) = sameReadsb buffer data).
  { apply eq_true_iff_eq. rewrite sameReadsb_spec. rewrite forallb_forall. split.
    - intros H v w Hv Hw. apply (In_nth _ _ []) in Hv. apply (In_nth _ _ []) in Hw. destruct Hv as (i & Hi & <-), Hw as (j & Hj & <-).
      specialize (H _ (in_map (fun r => (map2 op (nth r written []) (nth r data []), numReads (length (nth r data [])) buffer)) _ i (proj2 (in_seq _ _ _) (conj (Nat.le_0_l _) Hi)))).
      rewrite forallb_forall in H. specialize (H _ (in_map (fun r => (map2 op (nth r written []) (nth r data []), numReads (length (nth r data [])) buffer)) _ j (proj2 (in_seq _ _ _) (conj (Nat.le_0_l _) Hj)))).
      cbn [snd] in H. now apply Nat.eqb_eq in H.
    - intros H x Hx. apply in_map_iff in Hx. destruct Hx as (i & <- & Hi). apply in_seq in Hi. apply forallb_forall. intros y Hy. apply in_map_iff in Hy. destruct Hy as (j & <- & Hj). apply in_seq in Hj.
      cbn [snd]. apply Nat.eqb_eq. apply H; apply nth_In; lia. }
  rewrite EB. destruct (sameReadsb buffer data); auto. f_equal. rewrite map_map. cbn [fst].
  apply (nth_ext _ _ [] []). { rewrite map_length, seq_length, map2_length; lia. }
  intros r Hr. rewrite map_length, seq_length in Hr. rewrite nth_map_seq by auto. symmetry. apply map2_nth; lia.
Qed.

(** Reading with reduction combines every written value with the one in memory, for every buffer size with which all processes need
    the same number of reads. Missing: the other buffer sizes (see C39). *)
Theorem C37_read_reduce_partial : forall op fuel old replace written order buffer data, (1 <= buffer)%nat -> smallData written ->
  Permutation order (seq 0 (length written)) -> (length (openToWrite old replace) <= length (concat written))%nat ->
  map (@length A) written = map (@length A) data -> sameReads buffer data -> (forall v, In v data -> (numReads (length v) buffer <= fuel)%nat) ->
  readReduceValues fuel op (Some (writeValues zero old replace written order)) buffer data = Some (map2 (map2 op) written data).
Proof.
  intros op fuel old replace written order buffer data HB HS HP HL HM HR HF. rewrite C37_file_contents by auto.
  assert (HS2 : smallData data). { unfold smallData in *. rewrite Forall_forall in *. intros v Hv. apply (In_nth _ _ []) in Hv. destruct Hv as (r & Hr & <-).
    destruct (lengths_pos _ _ r HM) as [_ <-]. apply HS. apply nth_In. destruct (lengths_total _ _ HM). lia. }
  rewrite readReduce_eq by auto. now rewrite (proj2 (sameReadsb_spec _ _) HR).
Qed.

(** ** C39 *)
(** A process with [n] values enters ceil(n / buffer) collective reads. Hence the reduction returns exactly if these numbers agree.
    Missing in the claim: the buffer sizes for which they do not. *)
Theorem C39_matched_reads_partial : forall op written buffer data, (1 <= buffer)%nat -> smallData data -> map (@length A) written = map (@length A) data ->
  ((exists fuel, readReduceValues fuel op (Some (concat written)) buffer data <> None) <-> sameReads buffer data).
Proof.
  intros op written buffer data HB HS HL. destruct (lengths_total _ _ HL) as [LD LT]. split.
  - intros [fuel H]. destruct (Forall_Exists_dec (fun v => numReads (length v) buffer <= fuel)%nat (fun v => le_dec (numReads (length v) buffer) fuel) data) as [F|E].
    + rewrite readReduce_eq in H; auto; [|now apply Forall_forall]. apply sameReadsb_spec. destruct (sameReadsb buffer data); congruence.
    + exfalso. apply H. unfold readReduceValues, checkFileSize. rewrite LT, Nat.eqb_refl. rewrite sequenceO_None; auto.
      apply Exists_exists in E. destruct E as (v & Hv & NV). apply (In_nth _ _ []) in Hv. destruct Hv as (r & Hr & <-).
      apply in_map_iff. exists r. split; [|apply in_seq; lia]. pose proof (slot_end data r Hr).
      rewrite reduceLoop_eq; [|auto|now apply small_nth|lia]. destruct (Nat.leb_spec (numReads (length (nth r data [])) buffer) fuel); [lia|auto].
  - intros H. exists (fold_right Nat.max 0%nat (map (fun v => numReads (length v) buffer) data)). rewrite readReduce_eq; auto.
    + rewrite (proj2 (sameReadsb_spec _ _) H). discriminate.
    + intros v Hv. clear - Hv. induction data as [|x data IH]; [destruct Hv|]. cbn. destruct Hv as [->|Hv]; [lia|]. specialize (IH Hv). lia.
Qed.

(** With a buffer for the values of every process and values on every process (or on none) all is well. *)
Theorem C39_large_buffer : forall buffer data, (1 <= buffer)%nat -> (forall v, In v data -> (length v <= buffer)%nat) ->
  (sameReads buffer data <-> (forall v, In v data -> v = []) \/ (forall v, In v data -> v <> [])).
Proof.
  intros buffer data HB HL. assert (N : forall v, In v data -> numReads (length v) buffer = if match v with [] => true | _ => false end then 0%nat else 1%nat).
  { intros v Hv. specialize (HL v Hv). destruct v; [now apply numReads_0|]. apply numReads_last. cbn [length] in *. lia. }
  split.
  - intros H. destruct data as [|x data]; [left; intros ? []|]. destruct x as [|a x].
    + left. intros v Hv. specialize (H v [] Hv (or_introl eq_refl)). rewrite !N in H by (auto; now left). destruct v; [auto|discriminate].
    + right. intros v Hv E. specialize (H v _ Hv (or_introl eq_refl)). rewrite !N in H by (auto; now left). subst v. discriminate.
  - intros H v w Hv Hw. rewrite !N by auto. destruct H as [H|H].
    + now rewrite (H v Hv), (H w Hw).
    + pose proof (H v Hv). pose proof (H w Hw). destruct v, w; auto; congruence.
Qed.

(** A buffer that holds no value: no process with values returns. *)
Theorem C39_empty_buffer_refuted : forall op fuel (file : option (list A)) data v, In v data -> v <> [] -> readReduceValues fuel op file 0 data = None.
Proof.
  intros op fuel file data v Hv NV. unfold readReduceValues. destruct file as [f|]; auto. destruct (checkFileSize f data); auto. rewrite sequenceO_None; auto.
  apply (In_nth _ _ []) in Hv. destruct Hv as (r & Hr & <-). apply in_map_iff. exists r. split; [|apply in_seq; lia]. now apply reduceLoop_zero.
Qed.

(** Two files at once (only with a buffer for everything, the only way it is called), on one process. *)
Lemma reduceLoop2_eq : forall op fuel f1 f2 buffer pos todo, (length todo <= buffer)%nat -> (1 <= fuel)%nat -> Z.of_nat (length todo) < 2 ^ 31 ->
  (pos + length todo <= length f1)%nat -> (pos + length todo <= length f2)%nat ->
  reduceLoop2 fuel op f1 f2 buffer pos [] todo =
  Some (map2 (fun a bc => op a (fst bc) (snd bc)) (firstn (length todo) (skipn pos f1)) (combine todo (firstn (length todo) (skipn pos f2)))).
Proof.
  intros op fuel f1 f2 buffer pos todo HB HF HS H1 H2. destruct fuel as [|fuel]; [lia|]. destruct todo as [|t todo]; [reflexivity|].
  set (l := t :: todo) in *. assert (ST : reduceLoop2 (S fuel) op f1 f2 buffer pos [] l =
    let n := Nat.min buffer (length l) in let got1 := readValuesAt f1 n pos in let got2 := readValuesAt f2 n pos in
    reduceLoop2 fuel op f1 f2 n (pos + length got2) ([] ++ map2 (fun a bc => op a (fst bc) (snd bc)) got1 (combine (firstn (length got1) l) got2)) (skipn (length got2) l)) by reflexivity.
  rewrite ST. cbv zeta. clear ST. clearbody l. rewrite Nat.min_r by auto. rewrite !readValuesAt_small by lia.
  assert (G1 : length (firstn (length l) (skipn pos f1)) = length l) by (rewrite firstn_length, skipn_length; lia).
  assert (G2 : length (firstn (length l) (skipn pos f2)) = length l) by (rewrite firstn_length, skipn_length; lia).
  rewrite G1, G2, skipn_all, firstn_all. destruct fuel; reflexivity.
Qed.
End P.

(** One collective read more on one process: the reduction never returns (here a buffer of 2, 3 and 1 values). *)
Theorem C39_unmatched_refuted : exists (written data : list (list Z)) buffer, (1 <= buffer)%nat /\ smallData data /\ map (@length Z) written = map (@length Z) data /\
  forall fuel, readReduceValues fuel Z.add (Some (concat written)) buffer data = None.
Proof.
  exists [[1; 2; 3]; [4]], [[0; 0; 0]; [0]], 2%nat. split; [lia|]. split; [unfold smallData; repeat constructor; cbn; lia|]. split; [reflexivity|].
  intros fuel. destruct (readReduceValues fuel Z.add (Some (concat [[1; 2; 3]; [4]])) 2 [[0; 0; 0]; [0]]) eqn:E; auto.
  assert (H : sameReads 2 [[0; 0; 0]; [0]]).
  { apply (proj1 (C39_matched_reads_partial 0 Z.add [[1; 2; 3]; [4]] 2 [[0; 0; 0]; [0]] ltac:(lia) ltac:(unfold smallData; repeat constructor; cbn; lia) eq_refl)). exists fuel. rewrite E. discriminate. }
  specialize (H [0; 0; 0] [0] (or_introl eq_refl) (or_intror (or_introl eq_refl))). vm_compute in H. discriminate.
Qed.

(** Examples: three processes with 2, 0 and 3 values; the file held one value; the parts arrive in the order 2, 0, 1. *)
Example ex_data : list (list Z) := [[5; 6]; []; [7; 8; 9]].
Example C37_example : smallData ex_data /\ Permutation [2; 0; 1]%nat (seq 0 (length ex_data)) /\ (length (openToWrite (Some [99%Z]) false) <= length (concat ex_data))%nat /\
  writeValues 0 (Some [99]) false ex_data [2; 0; 1]%nat = [5; 6; 7; 8; 9] /\
  readValues (Some [5; 6; 7; 8; 9]) [[0; 0]; []; [0; 0; 0]] = Some ex_data.
Proof.
  split; [unfold smallData; repeat constructor; cbn; lia|]. split; [|repeat split; try reflexivity; cbn; lia].
  cbn. apply Permutation_sym. eapply perm_trans; [|apply perm_swap]. apply perm_skip. apply perm_swap.
Qed.
Example C37_large_example : 2 ^ 31 <= Z.of_nat (length (repeat 0 (Z.to_nat (2 ^ 31 + 5)))) < 2 ^ 32.
Proof. rewrite repeat_length, Z2Nat.id by lia. lia. Qed.
Example C37_reduce_example : sameReads 2 [[1; 1]; [1]] /\ readReduceValues 2 Z.add (Some (concat [[5; 6]; [7]])) 2 [[1; 1]; [1]] = Some [[6; 7]; [8]].
Proof. split; [apply sameReadsb_spec|]; reflexivity. Qed.
Example C38_example : writeValues 0 (Some [1; 2; 3; 4]) false [[5]; [6]] [1; 0]%nat = [5; 6; 3; 4].
Proof. reflexivity. Qed.
Print Assumptions C37_file_contents.
Print Assumptions C37_round_trip.
Print Assumptions C37_large_part_refuted.
Print Assumptions C37_read_reduce_partial.
Print Assumptions C38_shorter_refuted.
Print Assumptions C38_replaced_partial.
Print Assumptions C39_matched_reads_partial.
Print Assumptions C39_large_buffer.
Print Assumptions C39_empty_buffer_refuted.
Print Assumptions C39_unmatched_refuted.
