(** C100: compressed files. *)
From Verif Require Import Base FileModel FileProps CompressModel.
From Coq Require Import Permutation.
Open Scope Z_scope.
Ltac Zify.zify_post_hook ::= idtac.

Section P.
Context {B : Type} (zero : B).

(** What is assumed of LZ4 and of the representation of offsets. *)
Definition goodCodec (c : @Codec B) : Prop :=
  (forall x, unframe c (frame c x) = Some x) /\ (forall x, unframe c (hframe c x) = Some x) /\
  (forall l, length (encode c l) = (8 * length l)%nat) /\
  (forall l, Forall (fun n => Z.of_nat n < 2 ^ 63) l -> decode c (encode c l) = l).
(** The header with the sizes is as long as the one with the dummy contents (asserted in line 255). *)
Definition headerFits (c : @Codec B) (dummy : list B) (bytes : list (list B)) : Prop :=
  length (hframe c (encode c (map (@length B) (stringsBefore zero c dummy bytes)))) = headerSize c dummy.

Lemma writeAt_front : forall s h : list B, (length h <= length s)%nat -> writeAt zero s 0 h = h ++ skipn (length h) s.
Proof. intros s [|a h] H; [reflexivity|]. unfold writeAt. cbn [firstn Nat.add]. reflexivity. Qed.
Lemma writeAt_all : forall m v : list B, length m = length v -> writeAt zero m 0 v = v.
Proof. intros m v H. rewrite writeAt_front by lia. rewrite skipn_all2 by lia. apply app_nil_r. Qed.
Lemma writeAt_nil : forall (m : list B) p, writeAt zero m p [] = m.
Proof. reflexivity. Qed.

Lemma strings_eq : forall c dummy b bs, headerFits c dummy (b :: bs) ->
  compressedStrings zero c dummy (b :: bs) =
  (hframe c (encode c (map (@length B) (stringsBefore zero c dummy (b :: bs)))) ++ frame c b) :: map (frame c) bs.
Proof.
  intros c dummy b bs H. unfold headerFits in H. unfold compressedStrings. set (E := map (@length B) (stringsBefore zero c dummy (b :: bs))) in *. unfold stringsBefore.
  rewrite writeAt_front. 2:{ rewrite app_length, repeat_length. lia. }
  rewrite H, skipn_app, repeat_length, Nat.sub_diag, skipn_O, skipn_all2 by (rewrite repeat_length; lia). reflexivity.
Qed.
Lemma strings_lengths : forall c dummy bytes, headerFits c dummy bytes ->
  map (@length B) (compressedStrings zero c dummy bytes) = map (@length B) (stringsBefore zero c dummy bytes).
Proof.
  intros c dummy [|b bs] H; [reflexivity|]. rewrite strings_eq by auto. unfold stringsBefore at 2. cbn [map]. f_equal. rewrite !app_length, repeat_length. unfold headerFits in H. lia.
Qed.

(** ** One frame *)
Lemma decompress_whole : forall c esz content mem n, (0 < esz)%nat -> (0 < n)%nat -> length content = (n * esz)%nat -> length mem = (n * esz)%nat ->
  forall s, unframe c s = Some content -> decompressTo zero c esz s mem n = Some content.
Proof.
  intros c esz content mem n HE HN LC LM s US. unfold decompressTo. rewrite US. destruct n as [|[|n]]; [lia| |].
  - cbn [Nat.add decompressRounds]. rewrite firstn_all2, skipn_all2 by lia. rewrite LC, Nat.div_mul by lia. cbn [Nat.eqb].
    rewrite Nat.mul_0_l, writeAt_all by lia. rewrite firstn_nil. cbn [length]. rewrite Nat.div_0_l by lia. cbn [Nat.eqb]. rewrite writeAt_nil. reflexivity.
  - set (k := (S n + 2)%nat). change (S (S n) + 2)%nat with (S k). cbn [decompressRounds]. rewrite firstn_all2, skipn_all2 by lia. rewrite LC, Nat.div_mul by lia. cbn [Nat.eqb].
    rewrite Nat.mul_0_l, writeAt_all by lia. replace k with (S (S n + 1)) by (unfold k; lia). cbn [decompressRounds]. rewrite firstn_nil. cbn [length]. rewrite Nat.div_0_l by lia. cbn [Nat.eqb]. rewrite writeAt_nil. reflexivity.
Qed.
Lemma decompress_nothing : forall c esz s mem, decompressTo zero c esz s mem 0 = None.
Proof.
  intros c esz s mem. unfold decompressTo. destruct (unframe c s) as [content|]; auto. cbn [Nat.add decompressRounds Nat.mul firstn length].
  destruct esz; [reflexivity|]. rewrite Nat.div_0_l by lia. reflexivity.
Qed.

Lemma list_sum_concat : forall l : list (list B), list_sum (map (@length B) l) = length (concat l).
Proof. induction l as [|x l IH]; cbn; auto. rewrite app_length. unfold list_sum in IH. lia. Qed.
Lemma position_sum : forall (l : list (list B)) r, list_sum (firstn r (map (@length B) l)) = filePosition l r.
Proof. intros l r. rewrite firstn_map. apply list_sum_concat. Qed.

(** ** The header and the frames *)
Section F.
Context (c : @Codec B) (G : goodCodec c) (dummy : list B) (bytes : list (list B)) (HB : bytes <> []) (HF : headerFits c dummy bytes).
Context (HS : smallData (compressedStrings zero c dummy bytes)) (old : option (list B)) (order : list nat) (HP : Permutation order (seq 0 (length bytes))).
Notation strings := (compressedStrings zero c dummy bytes).
Notation file := (writeCompressed zero c dummy old bytes order).

Lemma n_strings : length strings = length bytes.
Proof. destruct bytes as [|b bs]; [congruence|]. rewrite strings_eq by auto. cbn. now rewrite map_length. Qed.
Lemma file_eq : file = concat strings.
Proof. unfold writeCompressed. apply C37_file_contents; auto; [now rewrite n_strings|]. destruct old; cbn; lia. Qed.

Lemma first_string : exists b bs, bytes = b :: bs /\ strings = (hframe c (encode c (map (@length B) strings)) ++ frame c b) :: map (frame c) bs.
Proof. destruct bytes as [|b bs]; [congruence|]. exists b, bs. split; auto. rewrite strings_lengths by auto. now apply strings_eq. Qed.
Lemma header_length : length (hframe c (encode c (map (@length B) strings))) = headerSize c dummy.
Proof. rewrite strings_lengths by auto. exact HF. Qed.

Lemma sizes_read : sizesFromHeader zero c dummy file (length bytes) = Some (map (@length B) strings).
Proof.
  destruct G as (G1 & G2 & G3 & G4). destruct first_string as (b & bs & EB & ES). pose proof header_length as HL. unfold sizesFromHeader. rewrite file_eq.
  set (E := encode c (map (@length B) strings)) in *.
  assert (RD : readValuesAt (concat strings) (headerSize c dummy) 0 = hframe c E).
  { rewrite readValuesAt_small.
    - rewrite skipn_O, ES. cbn [concat]. rewrite <- app_assoc, <- HL. rewrite firstn_app, Nat.sub_diag, firstn_O, firstn_all, app_nil_r. reflexivity.
    - pose proof (small_nth _ 0 HS) as SN. rewrite ES in SN. cbn [nth] in SN. rewrite app_length in SN. lia. }
  assert (LE : length E = (8 * length bytes)%nat) by (unfold E; rewrite G3, map_length, n_strings; reflexivity).
  rewrite RD. rewrite (decompress_whole c 8 E (repeat zero (8 * length bytes)) (length bytes)); try lia; auto.
  - unfold E. rewrite G4; auto. apply Forall_forall. intros n Hn. apply in_map_iff in Hn as (s & <- & Hs). unfold smallData in HS. rewrite Forall_forall in HS. specialize (HS s Hs). lia.
  - destruct bytes; [congruence|cbn; lia].
  - rewrite repeat_length. lia.
Qed.

Lemma frame_read : forall r, (r < length bytes)%nat -> let '(pos, size) := framePlace c dummy (map (@length B) strings) r in
  readValuesAt file size pos = frame c (nth r bytes []).
Proof.
  intros r Hr. destruct first_string as (b & bs & EB & ES). pose proof header_length as HL. unfold framePlace. rewrite position_sum, file_eq.
  set (E := encode c (map (@length B) strings)) in *. change 0%nat with (length (@nil B)) at 2 3. rewrite !map_nth. pose proof (small_nth _ r HS) as SN.
  destruct (Nat.eqb_spec r 0) as [->|NR].
  - rewrite ES in SN |- *. cbn [nth] in SN |- *. rewrite app_length, HL in SN |- *. replace (headerSize c dummy + length (frame c b) - headerSize c dummy)%nat with (length (frame c b)) by lia.
    rewrite readValuesAt_small by lia. unfold filePosition. cbn [firstn concat length Nat.add]. rewrite <- app_assoc. rewrite skipn_app, HL, Nat.sub_diag, skipn_O, skipn_all2 by lia. cbn [app].
    rewrite firstn_app, Nat.sub_diag, firstn_O, firstn_all, app_nil_r, EB. reflexivity.
  - rewrite readValuesAt_small by auto. rewrite slot_slice by (rewrite n_strings; auto). rewrite EB, ES in *. destruct r as [|r]; [congruence|]. cbn [nth length] in *.
    rewrite (nth_indep _ [] (frame c [])) by (rewrite map_length; lia). apply map_nth.
Qed.

Lemma frames_used : forall (X : Type) (use : nat -> list B -> option X),
  readFrames zero c dummy (Some file) (length bytes) use = sequenceO (map (fun r => use r (frame c (nth r bytes []))) (seq 0 (length bytes))).
Proof.
  intros X use. unfold readFrames. rewrite sizes_read, file_eq, list_sum_concat, Nat.eqb_refl, <- file_eq. f_equal. apply map_ext_in. intros r Hr. apply in_seq in Hr.
  pose proof (frame_read r ltac:(lia)) as FR. destruct (framePlace c dummy (map (@length B) strings) r) as [pos size]. now rewrite FR.
Qed.
End F.

(** ** Reducing while decompressing *)
Context (esz : nat) (HE : (0 < esz)%nat) (op : list B -> list B -> list B).

Lemma skipn_twice : forall (a b : nat) (l : list B), skipn a (skipn b l) = skipn (b + a) l.
Proof. induction b as [|b IH]; intros l; [reflexivity|]. destruct l; cbn [skipn Nat.add]; [now rewrite !skipn_nil|apply IH]. Qed.
Lemma chunks_app : forall a b (l : list B), chunks esz (a + b) l = chunks esz a l ++ chunks esz b (skipn (a * esz) l).
Proof.
  induction a as [|a IH]; intros b l; [reflexivity|]. cbn [Nat.add chunks app]. rewrite IH. do 2 f_equal. rewrite skipn_twice. f_equal.
Qed.
Lemma chunks_length : forall n (l : list B), length (chunks esz n l) = n.
Proof. induction n as [|n IH]; intros l; cbn; auto. Qed.
Lemma chunks_prefix : forall n (l l' : list B), firstn (n * esz) l = firstn (n * esz) l' -> chunks esz n l = chunks esz n l'.
Proof.
  induction n as [|n IH]; intros l l' H; [reflexivity|]. cbn [chunks]. cbn [Nat.mul] in H. f_equal.
  - apply (f_equal (firstn esz)) in H. rewrite !firstn_firstn in H. now replace (Nat.min esz (esz + n * esz)) with esz in H by lia.
  - apply IH. apply (f_equal (skipn esz)) in H. rewrite !skipn_firstn_comm in H. now replace (esz + n * esz - esz)%nat with (n * esz)%nat in H by lia.
Qed.
Lemma map2_app_firstn : forall (f : list B -> list B -> list B) l1 l2 t, map2 f (l1 ++ l2) t = map2 f l1 (firstn (length l1) t) ++ map2 f l2 (skipn (length l1) t).
Proof.
  intros f. induction l1 as [|x l1 IH]; intros l2 t; [reflexivity|]. destruct t as [|y t]; cbn [app map2 length firstn skipn].
  - destruct l2; reflexivity.
  - now rewrite IH.
Qed.

Lemma stream_last : forall fuel cap rem done todo, length rem = (length todo * esz)%nat -> (length rem <= cap)%nat -> (0 < fuel)%nat ->
  streamLoop esz fuel op cap rem [] done todo = Some (done ++ map2 op (chunks esz (length todo) rem) todo).
Proof.
  intros [|fuel] cap rem done todo HL HC HF; [lia|]. cbn [streamLoop]. rewrite firstn_all2, skipn_all2 by lia. cbn [length Nat.add app].
  destruct (Nat.ltb_spec cap (length rem)); [lia|]. rewrite HL, Nat.div_mul by lia. rewrite Nat.ltb_irrefl, firstn_all, skipn_all, app_nil_r. reflexivity.
Qed.
Lemma stream_aligned : forall cap, (0 < cap)%nat -> (cap mod esz = 0)%nat -> forall fuel rem done todo, length rem = (length todo * esz)%nat -> (length rem < fuel)%nat ->
  streamLoop esz fuel op cap rem [] done todo = Some (done ++ map2 op (chunks esz (length todo) rem) todo).
Proof.
  intros cap HC HM. apply Nat.mod_divides in HM as [q HQ]; [|lia]. induction fuel as [|fuel IH]; intros rem done todo HL HF; [lia|].
  destruct (Nat.le_gt_cases (length rem) cap) as [LE|GT]; [apply stream_last; auto; lia|].
  cbn [streamLoop]. assert (LO : length (firstn cap rem) = cap) by (rewrite firstn_length; lia). cbn [length Nat.add app]. rewrite LO, Nat.ltb_irrefl.
  assert (DQ : (cap / esz = q)%nat) by (rewrite HQ, Nat.mul_comm; apply Nat.div_mul; lia). rewrite DQ.
  assert (QL : (q <= length todo)%nat) by nia. destruct (Nat.ltb_spec (length todo) q); [lia|].
  replace (q * esz)%nat with cap by lia. rewrite (skipn_all2 (firstn cap rem)) by lia.
  destruct (skipn cap rem) as [|x t] eqn:ER; [apply (f_equal (@length B)) in ER; rewrite skipn_length in ER; cbn in ER; lia|]. rewrite <- ER.
  rewrite IH.
  - rewrite <- app_assoc. do 2 f_equal. rewrite skipn_length. replace (length todo) with (q + (length todo - q))%nat at 2 by lia. rewrite chunks_app, map2_app_firstn, chunks_length.
    replace (q * esz)%nat with cap by lia. f_equal. f_equal. apply chunks_prefix. rewrite firstn_firstn. f_equal. lia.
  - rewrite !skipn_length. nia.
  - rewrite skipn_length. lia.
Qed.
(** A buffer of another size is overrun in the second round. *)
Lemma stream_overrun : forall fuel cap rem done todo, (cap mod esz <> 0)%nat -> (2 * cap - cap mod esz < length rem)%nat -> length rem = (length todo * esz)%nat ->
  streamLoop esz fuel op cap rem [] done todo = None.
Proof.
  intros [|[|fuel]] cap rem done todo HM HL HT; [reflexivity| |];
    (pose proof (Nat.div_mod cap esz ltac:(lia)) as DM; pose proof (Nat.mod_le cap esz ltac:(lia)) as ML; cbn [streamLoop];
     assert (LO : length (firstn cap rem) = cap) by (rewrite firstn_length; lia); cbn [length Nat.add app]; rewrite LO, Nat.ltb_irrefl;
     destruct (length todo <? cap / esz)%nat; [reflexivity|];
     destruct (skipn cap rem) as [|x t] eqn:ER; [apply (f_equal (@length B)) in ER; rewrite skipn_length in ER; cbn in ER; lia|]); [reflexivity|]. rewrite <- ER; clear x t ER.
  cbn [streamLoop]. rewrite skipn_length, LO. set (m := (cap mod esz)%nat) in *. replace (cap - cap / esz * esz)%nat with m by nia.
  rewrite firstn_length, skipn_length. destruct (Nat.ltb_spec cap (m + Nat.min cap (length rem - cap))); [reflexivity|lia].
Qed.
End P.

(** ** C100 *)

(** Values written compressed are read back, by as many processes, whatever was in the memory and in the file before. Partial: every
    process needs to have a value (see the next theorem). *)
Theorem C100_round_trip_partial : forall (B : Type) (zero : B) (c : @Codec B) (dummy : list B) (esz : nat) (data : list (list B)) (old : option (list B)) (order : list nat) (mem : list (list B)),
  goodCodec c -> (0 < esz)%nat -> data <> [] ->
  headerFits zero c dummy data -> smallData (compressedStrings zero c dummy data) ->
  Permutation order (seq 0 (length data)) ->
  Forall (fun v => v <> [] /\ (length v mod esz = 0)%nat) data ->
  map (@length B) mem = map (@length B) data ->
  readCompressed zero c esz dummy (Some (writeCompressed zero c dummy old data order)) mem = Some data.
Proof.
  intros B zero c dummy esz data old order mem G HE ND HF HS HP HV HM. unfold readCompressed.
  assert (LM : length mem = length data) by (apply (f_equal (@length nat)) in HM; now rewrite !map_length in HM).
  rewrite LM, (frames_used zero c G dummy data ND HF HS old order HP). apply sequenceO_Some.
  transitivity (map (fun r => Some (nth r data [])) (seq 0 (length data))).
  - apply map_ext_in. intros r Hr. apply in_seq in Hr. rewrite Forall_forall in HV. destruct (HV (nth r data [])) as [NE MZ]; [apply nth_In; lia|].
    assert (LR : length (nth r mem []) = length (nth r data [])).
    { change (length (nth r mem [])) with ((fun v => length v) (nth r mem [])). rewrite <- (map_nth (@length B) mem), <- (map_nth (@length B) data). now rewrite HM. }
    cbv zeta. rewrite LR. apply Nat.mod_divides in MZ as [q HQ]; [|lia]. rewrite HQ, Nat.mul_comm, Nat.div_mul by lia.
    destruct (nth r data []) as [|x v] eqn:EV; [congruence|]. assert (0 < q)%nat by (cbn [length] in HQ; nia).
    apply decompress_whole; auto; try lia. destruct G as (G1 & _). rewrite <- EV. apply G1.
  - rewrite <- (map_map (fun r => nth r data []) Some). f_equal. clear. induction data as [|x l IH]; [reflexivity|]. cbn [length seq map nth]. f_equal. rewrite <- seq_shift, map_map. exact IH.
Qed.

(** A process without values cannot read its part: an exception. *)
Theorem C100_empty_part_refuted : forall (B : Type) (zero : B) (c : @Codec B) (dummy : list B) (esz : nat) (data : list (list B)) (old : option (list B)) (order : list nat) (mem : list (list B)),
  goodCodec c -> data <> [] ->
  headerFits zero c dummy data -> smallData (compressedStrings zero c dummy data) ->
  Permutation order (seq 0 (length data)) ->
  In [] data -> map (@length B) mem = map (@length B) data ->
  readCompressed zero c esz dummy (Some (writeCompressed zero c dummy old data order)) mem = None.
Proof.
  intros B zero c dummy esz data old order mem G ND HF HS HP HI HM. unfold readCompressed.
  assert (LM : length mem = length data) by (apply (f_equal (@length nat)) in HM; now rewrite !map_length in HM).
  rewrite LM, (frames_used zero c G dummy data ND HF HS old order HP). apply sequenceO_None. apply in_map_iff.
  destruct (In_nth _ _ [] HI) as (r & Hr & EV). exists r. split; [|apply in_seq; lia]. cbv zeta.
  assert (LR : length (nth r mem []) = 0%nat).
  { change (length (nth r mem [])) with ((fun v => length v) (nth r mem [])). rewrite <- (map_nth (@length B) mem). rewrite HM. rewrite (map_nth (@length B) data). now rewrite EV. }
  rewrite LR. destruct esz; [|rewrite Nat.div_0_l by lia]; apply decompress_nothing.
Qed.

(** Reading with a reduction (which the combination through files uses) combines every value with the one in the memory; also for
    processes without values. Partial: the size of the buffer is a multiple of that of a value, or the content fits into the buffer. *)
Theorem C100_reduce_partial : forall (B : Type) (zero : B) (c : @Codec B) (dummy : list B) (esz cap : nat) (op : list B -> list B -> list B)
    (data : list (list (list B))) (old : option (list B)) (order : list nat) (mem : list (list (list B))),
  goodCodec c -> (0 < esz)%nat -> (0 < cap)%nat -> data <> [] ->
  headerFits zero c dummy (map (@concat B) data) -> smallData (compressedStrings zero c dummy (map (@concat B) data)) ->
  Permutation order (seq 0 (length data)) ->
  Forall (Forall (fun v => length v = esz)) data ->
  (cap mod esz = 0 \/ Forall (fun v => length (concat v) <= cap) data)%nat ->
  map (@length (list B)) mem = map (@length (list B)) data ->
  readReduceCompressed zero c esz dummy cap op (Some (writeCompressed zero c dummy old (map (@concat B) data) order)) mem
    = Some (map2 (map2 op) data mem).
Proof.
  intros B zero c dummy esz cap op data old order mem G HE HC ND HF HS HP HV HB HM. unfold readReduceCompressed.
  assert (LM : length mem = length data) by (apply (f_equal (@length nat)) in HM; now rewrite !map_length in HM).
  assert (ND' : map (@concat B) data <> []) by (destruct data; [congruence|discriminate]).
  rewrite LM. rewrite <- (map_length (@concat B) data) in HP |- * at 1. rewrite (frames_used zero c G dummy _ ND' HF HS old order HP). rewrite map_length. apply sequenceO_Some.
  assert (CL : forall v, Forall (fun x : list B => length x = esz) v -> length (concat v) = (length v * esz)%nat /\ chunks esz (length v) (concat v) = v).
  { induction v as [|x v IH]; intros F; [auto|]. inversion F as [|? ? Hx Hv]; subst. destruct (IH Hv) as [I1 I2]. cbn [concat length chunks]. rewrite app_length. split; [nia|].
    rewrite firstn_app, firstn_all, Nat.sub_diag, firstn_O, app_nil_r, skipn_app, skipn_all, Nat.sub_diag. cbn [app skipn]. now rewrite I2. }
  transitivity (map (fun r => Some (map2 op (nth r data []) (nth r mem []))) (seq 0 (length data))).
  - apply map_ext_in. intros r Hr. apply in_seq in Hr. rewrite Forall_forall in HV. specialize (HV (nth r data []) ltac:(apply nth_In; lia)). destruct (CL _ HV) as [C1 C2].
    assert (EV : nth r (map (@concat B) data) [] = concat (nth r data [])) by (change (@nil B) with (concat (@nil (list B))) at 1; apply map_nth).
    assert (LR : length (nth r mem []) = length (nth r data [])).
    { change (length (nth r mem [])) with ((fun v => length v) (nth r mem [])). rewrite <- (map_nth (@length (list B)) mem), <- (map_nth (@length (list B)) data). now rewrite HM. }
    rewrite EV. destruct G as (G1 & _). rewrite G1.
    assert (ST : streamLoop esz (S (length (concat (nth r data [])))) op cap (concat (nth r data [])) [] [] (nth r mem []) = Some ([] ++ map2 op (chunks esz (length (nth r mem [])) (concat (nth r data []))) (nth r mem []))).
    { destruct HB as [HB|HB]; [apply stream_aligned|apply stream_last]; auto; try lia; try (rewrite LR; exact C1). rewrite Forall_forall in HB. apply HB, nth_In. lia. }
    rewrite ST, LR, C2. reflexivity.
  - rewrite <- (map_map (fun r => map2 op (nth r data []) (nth r mem [])) Some). f_equal. clear - LM. revert mem LM. induction data as [|x l IH]; intros [|y mem] LM; try discriminate; [reflexivity|].
    cbn [length seq map nth map2]. f_equal. rewrite <- seq_shift, map_map. apply IH. cbn in LM. lia.
Qed.

(** In particular for values of four and eight bytes (float, double, complex of float) and the buffer of the code. *)
Theorem C100_reduce_doubles : forall (B : Type) (zero : B) (c : @Codec B) (dummy : list B) (esz : nat) (op : list B -> list B -> list B)
    (data : list (list (list B))) (old : option (list B)) (order : list nat) (mem : list (list (list B))),
  goodCodec c -> esz = 4%nat \/ esz = 8%nat -> data <> [] ->
  headerFits zero c dummy (map (@concat B) data) -> smallData (compressedStrings zero c dummy (map (@concat B) data)) ->
  Permutation order (seq 0 (length data)) ->
  Forall (Forall (fun v => length v = esz)) data ->
  map (@length (list B)) mem = map (@length (list B)) data ->
  readReduceCompressed zero c esz dummy streamCapacity op (Some (writeCompressed zero c dummy old (map (@concat B) data) order)) mem
    = Some (map2 (map2 op) data mem).
Proof.
  intros B zero c dummy esz op data old order mem G HE ND HF HS HP HV HM. apply C100_reduce_partial; auto.
  - destruct HE as [->| ->]; lia.
  - unfold streamCapacity. lia.
  - left. apply Nat2Z.inj. unfold streamCapacity. destruct HE as [->| ->]; rewrite Nat2Z.inj_mod, Z2Nat.id by lia; reflexivity.
Qed.

(** For larger values (complex of double: 16 bytes) the decompressor is given the size of the whole buffer while the bytes of an
    incomplete value are at its beginning: with more than about 8 MiB of data it writes beyond the end of the buffer. *)
Theorem C100_overrun_refuted : forall (B : Type) (zero : B) (c : @Codec B) (dummy : list B) (esz cap : nat) (op : list B -> list B -> list B)
    (data : list (list (list B))) (old : option (list B)) (order : list nat) (mem : list (list (list B))),
  goodCodec c -> (0 < esz)%nat -> data <> [] ->
  headerFits zero c dummy (map (@concat B) data) -> smallData (compressedStrings zero c dummy (map (@concat B) data)) ->
  Permutation order (seq 0 (length data)) ->
  Forall (Forall (fun v => length v = esz)) data ->
  map (@length (list B)) mem = map (@length (list B)) data ->
  (cap mod esz <> 0)%nat -> Exists (fun v => 2 * cap - cap mod esz < length (concat v))%nat data ->
  readReduceCompressed zero c esz dummy cap op (Some (writeCompressed zero c dummy old (map (@concat B) data) order)) mem = None.
Proof.
  intros B zero c dummy esz cap op data old order mem G HE ND HF HS HP HV HM HC HX. unfold readReduceCompressed.
  assert (LM : length mem = length data) by (apply (f_equal (@length nat)) in HM; now rewrite !map_length in HM).
  assert (ND' : map (@concat B) data <> []) by (destruct data; [congruence|discriminate]).
  rewrite LM. rewrite <- (map_length (@concat B) data) in HP |- * at 1. rewrite (frames_used zero c G dummy _ ND' HF HS old order HP). rewrite map_length. apply sequenceO_None.
  apply Exists_exists in HX as (v & Hv & HX). destruct (In_nth _ _ [] Hv) as (r & Hr & EV). apply in_map_iff. exists r. split; [|apply in_seq; lia].
  assert (EC : nth r (map (@concat B) data) [] = concat v) by (rewrite <- EV; change (@nil B) with (concat (@nil (list B))) at 1; apply map_nth).
  rewrite EC. destruct G as (G1 & _). rewrite G1. apply stream_overrun; auto.
  assert (LR : length (nth r mem []) = length v).
  { change (length (nth r mem [])) with ((fun v => length v) (nth r mem [])). rewrite <- EV, <- (map_nth (@length (list B)) mem), <- (map_nth (@length (list B)) data). now rewrite HM. }
  rewrite LR. rewrite Forall_forall in HV. specialize (HV v Hv). clear - HV. induction v as [|x v IH]; [reflexivity|]. inversion HV as [|? ? Hx Hv']; subst. cbn [concat length]. rewrite app_length, IH by auto. lia.
Qed.
(** With the buffer of the code: complex of double, and a process with more than 8421544 bytes. *)
Theorem C100_overrun_complex_refuted : forall (B : Type) (zero : B) (c : @Codec B) (dummy : list B) (op : list B -> list B -> list B)
    (data : list (list (list B))) (old : option (list B)) (order : list nat) (mem : list (list (list B))),
  goodCodec c -> data <> [] ->
  headerFits zero c dummy (map (@concat B) data) -> smallData (compressedStrings zero c dummy (map (@concat B) data)) ->
  Permutation order (seq 0 (length data)) ->
  Forall (Forall (fun v => length v = 16%nat)) data ->
  map (@length (list B)) mem = map (@length (list B)) data ->
  Exists (fun v => 8421544 < Z.of_nat (length (concat v))) data ->
  readReduceCompressed zero c 16 dummy streamCapacity op (Some (writeCompressed zero c dummy old (map (@concat B) data) order)) mem = None.
Proof.
  intros B zero c dummy op data old order mem G ND HF HS HP HV HM HX.
  assert (M : Z.of_nat (streamCapacity mod 16) = 8) by (unfold streamCapacity; rewrite Nat2Z.inj_mod, Z2Nat.id by lia; reflexivity).
  assert (S : Z.of_nat streamCapacity = 4210776) by (unfold streamCapacity; rewrite Z2Nat.id by lia; reflexivity).
  apply C100_overrun_refuted; auto; [lia|lia|]. apply Exists_exists in HX as (v & Hv & HX). apply Exists_exists. exists v. split; auto. lia.
Qed.

(** A codec: frames without compression, marked by their first bytes; an offset in the first of its eight bytes. *)
Definition storedCodec : @Codec Z := {|
  frame := fun x => 4 :: x;
  hframe := fun x => 0 :: 24 :: x;
  unframe := fun s => match s with 4 :: x => Some x | 0 :: 24 :: x => Some x | _ => None end;
  encode := fun l => flat_map (fun n => Z.of_nat n :: repeat 0 7) l;
  decode := fun b => map (fun v => Z.to_nat (hd 0 v)) (chunks 8 (length b / 8) b) |}.
Lemma stored_good : goodCodec storedCodec.
Proof.
  assert (L : forall l, length (encode storedCodec l) = (8 * length l)%nat) by (induction l as [|n l IH]; cbn in *; [reflexivity|rewrite IH; lia]).
  split; [reflexivity|]. split; [reflexivity|]. split; [exact L|].
  intros l _. unfold decode; cbn [storedCodec]. rewrite L. rewrite Nat.mul_comm, Nat.div_mul by lia. induction l as [|n l IH]; [reflexivity|].
  change (encode storedCodec (n :: l)) with ((Z.of_nat n :: repeat 0 7) ++ encode storedCodec l). cbn [length chunks map]. f_equal; [cbn; lia|]. exact IH.
Qed.

(** Three processes with two, one and three values of four bytes; another file was there before. *)
Definition exValues : list (list (list Z)) := [[[1;2;3;4];[5;6;7;8]]; [[9;10;11;12]]; [[13;14;15;16];[17;18;19;20];[21;22;23;24]]].
Definition exDummy : list Z := repeat 7 24.
Definition exMemory : list (list (list Z)) := [[[1;1;1;1];[2;2;2;2]]; [[3;3;3;3]]; [[4;4;4;4];[5;5;5;5];[6;6;6;6]]].
Lemma ex_small : smallData (compressedStrings 0 storedCodec exDummy (map (@concat Z) exValues)).
Proof. match goal with |- smallData ?l => let v := eval vm_compute in l in change (smallData v) end. repeat (constructor; [reflexivity|]). constructor. Qed.
Example C100_ex : readCompressed 0 storedCodec 4 exDummy (Some (writeCompressed 0 storedCodec exDummy (Some [3;3;3]) (map (@concat Z) exValues) [2;0;1]%nat)) (map (@concat Z) exMemory) = Some (map (@concat Z) exValues).
Proof.
  apply C100_round_trip_partial; [apply stored_good|lia|discriminate|reflexivity|apply ex_small| | |reflexivity].
  - cbn. apply perm_trans with [0;2;1]%nat; [apply perm_swap|]. apply perm_skip, perm_swap.
  - repeat (constructor; [split; [discriminate|reflexivity]|]). constructor.
Qed.
Example C100_ex_reduce : readReduceCompressed 0 storedCodec 4 exDummy 8 (map2 Z.add) (Some (writeCompressed 0 storedCodec exDummy None (map (@concat Z) exValues) [0;1;2]%nat)) exMemory
  = Some [[[2;3;4;5];[7;8;9;10]]; [[12;13;14;15]]; [[17;18;19;20];[22;23;24;25];[27;28;29;30]]].
Proof.
  rewrite (C100_reduce_partial _ 0 storedCodec exDummy 4 8 (map2 Z.add) exValues None [0;1;2]%nat exMemory); [reflexivity|apply stored_good|lia|lia|discriminate|reflexivity|apply ex_small|apply Permutation_refl| |now left|reflexivity].
  repeat (constructor; [repeat (constructor; [reflexivity|]); constructor|]). constructor.
Qed.
Example C100_ex_doubles : readReduceCompressed 0 storedCodec 4 exDummy streamCapacity (map2 Z.mul) (Some (writeCompressed 0 storedCodec exDummy None (map (@concat Z) exValues) [1;0;2]%nat)) exMemory
  = Some [[[1;2;3;4];[10;12;14;16]]; [[27;30;33;36]]; [[52;56;60;64];[85;90;95;100];[126;132;138;144]]].
Proof.
  rewrite (C100_reduce_doubles _ 0 storedCodec exDummy 4 (map2 Z.mul) exValues None [1;0;2]%nat exMemory); [reflexivity|apply stored_good|now left|discriminate|reflexivity|apply ex_small|apply perm_swap| |reflexivity].
  repeat (constructor; [repeat (constructor; [reflexivity|]); constructor|]). constructor.
Qed.
(** The second process has no value. *)
Example C100_ex_empty : readCompressed 0 storedCodec 4 (repeat 7 16) (Some (writeCompressed 0 storedCodec (repeat 7 16) None [[1;2;3;4];[]] [0;1]%nat)) [[0;0;0;0];[]] = None.
Proof.
  apply C100_empty_part_refuted; [apply stored_good|discriminate|reflexivity| |apply Permutation_refl|right; now left|reflexivity].
  match goal with |- smallData ?l => let v := eval vm_compute in l in change (smallData v) end. repeat (constructor; [reflexivity|]). constructor.
Qed.
(** A buffer of five bytes and values of four. *)
Example C100_ex_overrun : readReduceCompressed 0 storedCodec 4 exDummy 5 (map2 Z.add) (Some (writeCompressed 0 storedCodec exDummy None (map (@concat Z) exValues) [0;1;2]%nat)) exMemory = None.
Proof.
  apply C100_overrun_refuted; [apply stored_good|lia|discriminate|reflexivity|apply ex_small|apply Permutation_refl| |reflexivity|discriminate|].
  - repeat (constructor; [repeat (constructor; [reflexivity|]); constructor|]). constructor.
  - right. right. left. cbn. lia.
Qed.

Print Assumptions C100_round_trip_partial.
Print Assumptions C100_empty_part_refuted.
Print Assumptions C100_reduce_partial.
Print Assumptions C100_reduce_doubles.
Print Assumptions C100_overrun_refuted.
Print Assumptions C100_overrun_complex_refuted.
