(** C66 - C69: messages and data over byte streams. *)
From Verif Require Import Base FileModel FileProps NetModel.
Open Scope Z_scope.
Ltac Zify.zify_post_hook ::= idtac.

Lemma recv_spec : forall n b c, (0 < n)%nat -> b <> [] -> exists k, (1 <= k <= n)%nat /\ (k <= length b)%nat /\ recv n (Stream b c) = (firstn k b, Stream (skipn k b) (tl c)).
Proof. intros n b c Hn Hb. unfold recv. cbn [bytes cuts]. exists (Nat.min n (Nat.min (length b) (Nat.max 1 (hd n c)))).
  split; [|split; [|reflexivity]]; (destruct b; [congruence|]); cbn [length]; lia.
Qed.
Lemma length_firstn_le : forall (A : Type) k (l : list A), (k <= length l)%nat -> length (firstn k l) = k.
Proof. intros A k l H. rewrite firstn_length. lia. Qed.
Lemma recvLoop_spec : forall fuel missing b c got, (missing <= fuel)%nat -> (missing <= length b)%nat ->
  exists c', recvLoop fuel missing (Stream b c) got = Some (got ++ firstn missing b, Stream (skipn missing b) c').
Proof.
  induction fuel as [|fuel IH]; intros missing b c got HF HB; destruct missing as [|m]; try lia.
  - exists c. cbn. now rewrite app_nil_r.
  - exists c. cbn. now rewrite app_nil_r.
  - destruct (recv_spec (S m) b c) as (k & K1 & K2 & E); [lia|destruct b; cbn in *; [lia|discriminate]|].
    cbn [recvLoop]. rewrite E. pose proof (length_firstn_le _ k b K2) as L. destruct (firstn k b) as [|x r] eqn:EF; [cbn in L; lia|]. rewrite <- EF in *.
    destruct (IH (S m - length (firstn k b))%nat (skipn k b) (tl c) (got ++ firstn k b)) as [c' E']; [lia|rewrite skipn_length; lia|].
    exists c'. rewrite E'. rewrite L, <- app_assoc, <- firstn_add, skipn_add. now replace (k + (S m - k))%nat with (S m) by lia.
Qed.
Lemma recvall_spec : forall m rest c, exists c', recvall (length m) (Stream (m ++ rest) c) = Some (m, Stream rest c').
Proof.
  intros m rest c. destruct (recvLoop_spec (length m) (length m) (m ++ rest) c []) as [c' E]; [lia|rewrite app_length; lia|]. exists c'. unfold recvall. rewrite E.
  rewrite firstn_app, firstn_all, Nat.sub_diag, app_nil_r, skipn_app, skipn_all, Nat.sub_diag. reflexivity.
Qed.
Lemma sendall_eq : forall sc b, sendall sc b = b.
Proof.
  intros sc b. unfold sendall. assert (H : forall fuel sc b, (length b <= fuel)%nat -> sendLoop fuel sc b = b); [|auto].
  induction fuel as [|fuel IH]; intros sc' b' H; destruct b' as [|x b']; cbn [length] in H; try lia; auto.
  cbn [sendLoop]. rewrite IH; [apply firstn_skipn|]. rewrite skipn_length. cbn [length]. lia.
Qed.

Definition digit (c : Z) : Prop := 48 <= c <= 57.
Lemma digitsLoop_spec : forall fuel n acc, 0 <= n -> Z.log2 n < Z.of_nat fuel ->
  exists ds, digitsLoop fuel n acc = ds ++ acc /\ Forall digit ds /\ ds <> [] /\ fold_left (fun a c => 10 * a + (c - 48)) ds 0 = n.
Proof.
  induction fuel as [|fuel IH]; intros n acc H0 HF; [pose proof (Z.log2_nonneg n); lia|]. cbn [digitsLoop]. destruct (Z.ltb_spec n 10) as [L|L].
  - exists [48 + n]. split; [reflexivity|]. split; [constructor; [unfold digit; lia|constructor]|]. split; [discriminate|]. cbn [fold_left]. lia.
  - pose proof (Z.div_mod n 10 ltac:(lia)) as D. pose proof (Z.mod_pos_bound n 10 ltac:(lia)) as M.
    assert (LG : Z.log2 (n / 10) < Z.of_nat fuel).
    { apply Z.log2_lt_pow2; [lia|]. apply Z.div_lt_upper_bound; [lia|]. assert (n < 2 ^ Z.of_nat (S fuel)) by (apply Z.log2_lt_pow2; lia).
      rewrite Nat2Z.inj_succ, Z.pow_succ_r in H by lia. lia. }
    destruct (IH (n / 10) ((48 + n mod 10) :: acc) ltac:(lia) LG) as (ds & E & F & N & V). exists (ds ++ [48 + n mod 10]). rewrite E, <- app_assoc. split; [reflexivity|].
    split; [apply Forall_app; split; auto; constructor; [unfold digit; lia|constructor]|]. split; [destruct ds; discriminate|]. rewrite fold_left_app, V. cbn [fold_left]. lia.
Qed.
Lemma toString_spec : forall n, 0 <= n -> Forall digit (toString n) /\ toString n <> [] /\ fold_left (fun a c => 10 * a + (c - 48)) (toString n) 0 = n.
Proof.
  intros n H. unfold toString. destruct (digitsLoop_spec (S (Z.to_nat (Z.log2 n))) n [] H) as (ds & E & R); [pose proof (Z.log2_nonneg n); lia|].
  rewrite E, app_nil_r. exact R.
Qed.
Lemma parse_toString : forall limit n, 0 <= n -> parse limit (toString n) = if n <? limit then Some n else None.
Proof.
  intros limit n H. destruct (toString_spec n H) as (F & N & V). unfold parse. destruct (toString n) as [|c l] eqn:E; [congruence|]. rewrite <- E in *.
  assert (A : forallb (fun c => (48 <=? c) && (c <=? 57)) (toString n) = true).
  { apply forallb_forall. intros x Hx. rewrite Forall_forall in F. specialize (F x Hx). unfold digit in F. apply andb_true_iff. split; apply Z.leb_le; lia. }
  rewrite A, V. reflexivity.
Qed.
Lemma recvLengthLoop_spec : forall ds fuel rest c acc, Forall digit ds -> (length ds < fuel)%nat ->
  exists c', recvLengthLoop fuel (Stream (ds ++ [35] ++ rest) c) acc = Some (acc ++ ds, Stream rest c').
Proof.
  induction ds as [|d ds IH]; intros fuel rest c acc HD HF; (destruct fuel as [|fuel]; [cbn in HF; lia|]); cbn [recvLengthLoop].
  - cbn [app]. destruct (recv_spec 1 (35 :: rest) c) as (k & K1 & K2 & E); [lia|discriminate|]. rewrite E. assert (k = 1%nat) by lia. subst k. cbn. rewrite app_nil_r. eauto.
  - destruct (recv_spec 1 ((d :: ds) ++ [35] ++ rest) c) as (k & K1 & K2 & E); [lia|discriminate|]. rewrite E. assert (k = 1%nat) by lia. subst k.
    inversion HD as [|x l D1 D2]; subst. cbn [firstn skipn app]. destruct (Z.eqb_spec d 35) as [->|NE]; [unfold digit in D1; lia|].
    destruct (IH fuel rest (tl c) (acc ++ [d]) D2) as [c' E']; [cbn in HF; lia|]. exists c'. cbn [app] in E'. rewrite E', <- app_assoc. reflexivity.
Qed.
Lemma recvLength_spec : forall m rest c, exists c', recvLength (Stream (prefixed m ++ rest) c) = if Z.of_nat (length m) <? 2 ^ 31 then Some (Z.of_nat (length m), Stream (m ++ rest) c') else None.
Proof.
  intros m rest c. unfold recvLength, prefixed. cbn [bytes]. rewrite <- !app_assoc.
  destruct (toString_spec (Z.of_nat (length m)) ltac:(lia)) as (F & N & V).
  destruct (recvLengthLoop_spec (toString (Z.of_nat (length m))) (S (length (toString (Z.of_nat (length m)) ++ [35] ++ m ++ rest))) (m ++ rest) c [] F) as [c' E]; [rewrite app_length; lia|].
  exists c'. rewrite E. cbn [app]. rewrite parse_toString by lia. destruct (Z.of_nat (length m) <? 2 ^ 31); reflexivity.
Qed.

(** A message arrives as it was sent and nothing else is taken from the stream, however the bytes are delivered. *)
Theorem C66_message : forall m rest cuts sendCuts, Z.of_nat (length m) < 2 ^ 31 ->
  exists cuts', recvallPrefixed (Stream (sendall sendCuts (prefixed m) ++ rest) cuts) = Some (m, Stream rest cuts').
Proof.
  intros m rest cuts sc H. rewrite sendall_eq. unfold recvallPrefixed. destruct (recvLength_spec m rest cuts) as [c' E]. rewrite E. apply Z.ltb_lt in H. rewrite H.
  rewrite Nat2Z.id. apply recvall_spec.
Qed.
(** Any sequence of messages. *)
Theorem C66_messages : forall ms rest cuts, Forall (fun m => Z.of_nat (length m) < 2 ^ 31) ms ->
  exists cuts', recvMessages (length ms) (Stream (concat (map prefixed ms) ++ rest) cuts) = Some (ms, Stream rest cuts').
Proof.
  induction ms as [|m ms IH]; intros rest cuts H; [exists cuts; reflexivity|]. inversion H as [|x l H1 H2]; subst. cbn [length recvMessages map concat]. rewrite <- app_assoc.
  destruct (C66_message m (concat (map prefixed ms) ++ rest) cuts [] H1) as [c1 E1]. rewrite sendall_eq in E1. rewrite E1. destruct (IH rest c1 H2) as [c2 E2]. rewrite E2. eauto.
Qed.
(** Numbers. *)
Theorem C66_number : forall n rest cuts, 0 <= n < 2 ^ 64 -> exists cuts', receivePosNumber (Stream (prefixed (toString n) ++ rest) cuts) = Some (n, Stream rest cuts').
Proof.
  intros n rest cuts H. unfold receivePosNumber. destruct (C66_message (toString n) rest cuts []) as [c' E].
  { unfold toString. assert (L : forall fuel n acc, (length (digitsLoop fuel n acc) <= fuel + length acc)%nat).
    { induction fuel as [|fuel IH]; intros n0 acc; cbn [digitsLoop]; [lia|]. destruct (n0 <? 10); [cbn; lia|]. specialize (IH (n0 / 10) ((48 + n0 mod 10) :: acc)). cbn [length] in IH. lia. }
    specialize (L (S (Z.to_nat (Z.log2 n))) n []). cbn [length] in L. assert (Z.log2 n <= Z.log2 (2 ^ 64)) by (apply Z.log2_le_mono; lia). rewrite Z.log2_pow2 in H0 by lia. pose proof (Z.log2_nonneg n). lia. }
  rewrite sendall_eq in E. rewrite E, parse_toString by lia. replace (n <? 2 ^ 64) with true by (symmetry; apply Z.ltb_lt; lia). eauto.
Qed.
(** A message of 2^31 bytes or more cannot be received: std::stoi throws. *)
Theorem C66_long_message_refuted : forall m rest cuts, 2 ^ 31 <= Z.of_nat (length m) -> recvallPrefixed (Stream (prefixed m ++ rest) cuts) = None.
Proof. intros m rest cuts H. unfold recvallPrefixed. destruct (recvLength_spec m rest cuts) as [c' E]. rewrite E. apply Z.ltb_ge in H. rewrite H. reflexivity. Qed.
Lemma recvLengthLoop_closed : forall fuel ds c acc, Forall digit ds -> recvLengthLoop fuel (Stream ds c) acc = None.
Proof.
  induction fuel as [|fuel IH]; intros ds c acc HD; auto. cbn [recvLengthLoop]. destruct ds as [|d ds]; [cbn; reflexivity|].
  destruct (recv_spec 1 (d :: ds) c) as (k & K1 & K2 & E); [lia|discriminate|]. rewrite E. assert (k = 1%nat) by lia. subst k. cbn [firstn skipn].
  inversion HD as [|x l D1 D2]; subst. destruct (Z.eqb_spec d 35) as [->|NE]; [unfold digit in D1; lia|]. now apply IH.
Qed.
Lemma recvLoop_closed : forall fuel missing b c got, (length b < missing)%nat -> recvLoop fuel missing (Stream b c) got = None.
Proof.
  induction fuel as [|fuel IH]; intros missing b c got H; (destruct missing as [|m]; [lia|]); auto. cbn [recvLoop]. destruct b as [|x b]; [cbn; reflexivity|].
  destruct (recv_spec (S m) (x :: b) c) as (k & K1 & K2 & E); [lia|discriminate|]. rewrite E. destruct (firstn k (x :: b)) eqn:EF; auto. rewrite <- EF.
  apply IH. rewrite skipn_length, length_firstn_le by lia. lia.
Qed.
(** A connection closed inside of a message is noticed. *)
Theorem C66_closed : forall m k cuts, (k < length (prefixed m))%nat -> recvallPrefixed (Stream (firstn k (prefixed m)) cuts) = None.
Proof.
  intros m k cuts H. unfold recvallPrefixed. destruct (toString_spec (Z.of_nat (length m)) ltac:(lia)) as (F & N & _).
  set (d := toString (Z.of_nat (length m))) in *. unfold prefixed in *. fold d in H |- *. rewrite !app_length in H. cbn [length] in H.
  destruct (Nat.le_gt_cases k (length d)) as [L|L].
  - unfold recvLength. rewrite firstn_app. replace (k - length d)%nat with 0%nat by lia. cbn [firstn]. rewrite app_nil_r, recvLengthLoop_closed; auto.
    rewrite <- (firstn_skipn k d) in F. now apply Forall_app in F.
  - unfold recvLength. rewrite firstn_app, firstn_all2 by lia. destruct (k - length d)%nat as [|j] eqn:EJ; [lia|]. cbn [app firstn bytes].
    destruct (recvLengthLoop_spec d (S (length (d ++ 35 :: firstn j m))) (firstn j m) cuts [] F) as [c' E]; [rewrite app_length; lia|].
    cbn [app] in E. rewrite E. unfold d. rewrite parse_toString by lia. destruct (Z.of_nat (length m) <? 2 ^ 31); auto. rewrite Nat2Z.id.
    apply recvLoop_closed. rewrite firstn_length. lia.
Qed.
Example C66_example : let s := Stream (prefixed [114; 101; 97; 100; 121] ++ prefixed (toString 8193) ++ [7]) [1; 1; 2; 1; 1; 0; 1; 1; 3]%nat in
  match recvMessages 2 s with Some (ms, s') => ms = [[114; 101; 97; 100; 121]; [56; 49; 57; 51]] /\ bytes s' = [7] | None => False end.
Proof. vm_compute. split; reflexivity. Qed.

Lemma forward_spec : forall chunk fuel missing b c, (0 < chunk)%nat -> (missing <= fuel)%nat -> (missing <= length b)%nat ->
  exists c', forward fuel chunk missing (Stream b c) = Some (firstn missing b, Stream (skipn missing b) c').
Proof.
  intros chunk. induction fuel as [|fuel IH]; intros missing b c HC HF HB; destruct missing as [|m]; try lia; try (exists c; reflexivity).
  cbn [forward]. set (n := if (S m <? chunk)%nat then S m else chunk).
  assert (Hn : (0 < n <= S m)%nat) by (unfold n; destruct (Nat.ltb_spec (S m) chunk); lia).
  destruct (recv_spec n b c) as (k & K1 & K2 & E); [lia|destruct b; cbn in *; [lia|discriminate]|]. rewrite E.
  pose proof (length_firstn_le _ k b K2) as L. destruct (firstn k b) as [|x r] eqn:EF; [cbn in L; lia|]. rewrite <- EF in *. rewrite L.
  destruct (IH (S m - k)%nat (skipn k b) (tl c)) as [c' E']; [lia|lia|rewrite skipn_length; lia|]. rewrite E', sendall_eq. exists c'.
  rewrite <- firstn_add, skipn_add. now replace (k + (S m - k))%nat with (S m) by lia.
Qed.
(** The broker passes the announced size and the data on unchanged, whatever its chunk size and however the bytes are delivered, and takes
    nothing else from the stream. *)
Theorem C67_forward : forall payload rest cuts chunksize, (0 < chunksize)%nat -> Z.of_nat (length payload) < 2 ^ 64 ->
  let message := prefixed (toString (Z.of_nat (length payload))) ++ payload in
  exists cuts', forwardData chunksize (Stream (message ++ rest) cuts) = Some (message, Stream rest cuts').
Proof.
  intros payload rest cuts chunk HC HP message. unfold forwardData, message. rewrite <- app_assoc.
  destruct (C66_number (Z.of_nat (length payload)) (payload ++ rest) cuts) as [c1 E1]; [lia|]. rewrite E1. destruct (Z.eqb_spec (Z.of_nat (length payload)) 0) as [Z0|NZ].
  - destruct payload as [|x p]; [|cbn in Z0; lia]. exists c1. now rewrite app_nil_r.
  - rewrite Nat2Z.id. destruct (forward_spec chunk (length payload) (length payload) (payload ++ rest) c1 HC) as [c2 E2]; [lia|rewrite app_length; lia|]. rewrite E2. exists c2.
    rewrite firstn_app, firstn_all, Nat.sub_diag, app_nil_r, skipn_app, skipn_all, Nat.sub_diag. reflexivity.
Qed.
Example C67_example : match forwardData 4 (Stream (prefixed (toString 11) ++ [1; 2; 3; 4; 5; 6; 7; 8; 9; 10; 11] ++ [99; 98]) [1; 1; 1; 1; 1; 1; 7; 2; 1; 3]%nat) with
  Some (out, s') => out = [50; 35; 49; 49; 1; 2; 3; 4; 5; 6; 7; 8; 9; 10; 11] /\ bytes s' = [99; 98] | None => False end.
Proof. vm_compute. split; reflexivity. Qed.

(** ** Binary data *)
(** The positions in the data at which the calls of recv(2) end: at most [chunk] bytes are requested, never more than are missing. *)
Fixpoint ends (fuel chunk total pos : nat) (cuts : list nat) : list nat :=
  match fuel with
  | O => []
  | S fuel' => if (total <=? pos)%nat then [] else
               let n := Nat.min (total - pos) chunk in let p := (pos + Nat.min n (Nat.max 1 (hd n cuts)))%nat in p :: ends fuel' chunk total p (tl cuts)
  end.
(** No call ends inside of the element in which it starts, unless it starts at its first byte: the end of a started element is reached. *)
Fixpoint fits (w pos : nat) (es : list nat) : Prop :=
  match es with [] => True | p :: ps => (w * ((pos + w - 1) / w) <= p)%nat /\ fits w p ps end.

Section Binary.
Variable V : Type.
Variable w : nat.
Variable enc : V -> list Z.
Variable dec : list Z -> V.
Hypothesis w_pos : (0 < w)%nat.
Hypothesis w_div : (Z.of_nat w | 2 ^ 64).
Hypothesis enc_length : forall v, length (enc v) = w.
Hypothesis dec_enc : forall v, dec (enc v) = v.

Lemma data_length : forall vals, length (concat (map enc vals)) = (length vals * w)%nat.
Proof. induction vals as [|v vals IH]; auto. cbn [map concat length]. rewrite app_length, enc_length, IH. lia. Qed.
Lemma data_slice : forall vals i v, nth_error vals i = Some v -> firstn w (skipn (i * w) (concat (map enc vals))) = enc v.
Proof.
  induction vals as [|x vals IH]; intros [|i] v H; try discriminate; cbn [nth_error] in H.
  - injection H as ->. cbn [Nat.mul skipn map concat]. rewrite firstn_app, enc_length, Nat.sub_diag, firstn_all2 by (rewrite enc_length; lia). apply app_nil_r.
  - cbn [map concat]. rewrite skipn_app, enc_length, skipn_all2 by (rewrite enc_length; lia). cbn [app]. replace (S i * w - w)%nat with (i * w)%nat by lia. now apply IH.
Qed.
Variable op : V -> V -> V.

Lemma unsigned_mod : forall x, (x mod 2 ^ 64) mod Z.of_nat w = x mod Z.of_nat w.
Proof. intros x. symmetry. apply Znumtheory.Zmod_div_mod; [lia|reflexivity|exact w_div]. Qed.
Section Loop.
Variables vals buff : list V.
Hypothesis same_length : length buff = length vals.
Notation data := (concat (map enc vals)).
Definition B (q : nat) : list V := firstn q (map2 op buff vals) ++ skipn q buff.

Lemma put_next : forall q v, nth_error vals q = Some v -> put V op (B q, q) (Some v) = Some (B (S q), S q).
Proof.
  intros q v H. assert (L : (q < length vals)%nat) by (apply nth_error_Some; congruence). unfold put, B. destruct (nth_error buff q) as [b|] eqn:EB; [|apply nth_error_None in EB; lia].
  assert (LM : length (map2 op buff vals) = length vals) by (rewrite map2_length; lia).
  assert (LF : length (firstn q (map2 op buff vals)) = q) by (apply length_firstn_le; lia).
  rewrite nth_error_app2 by lia. rewrite LF, Nat.sub_diag.
  assert (SK : skipn q buff = b :: skipn (S q) buff).
  { clear - EB. revert q EB. induction buff as [|x l IH]; intros [|q] E; try discriminate; cbn in *; [congruence|]. now apply IH. }
  rewrite SK. cbn [nth_error]. f_equal. f_equal.
  assert (FS : firstn (S q) (map2 op buff vals) = firstn q (map2 op buff vals) ++ [op b v]).
  { clear - EB H. revert vals q EB H. induction buff as [|x l IH]; intros [|y vs] [|q] E1 E2; try discriminate; cbn in *; [congruence|]. now rewrite (IH vs q). }
  rewrite FS, <- app_assoc. cbn [app]. revert LF. generalize (firstn q (map2 op buff vals)) as l. generalize (skipn (S q) buff) as l2. clear. intros l2 l LF. revert q LF. induction l as [|x l IH]; intros q LF; cbn in *.
  - subst q. reflexivity.
  - destruct q; [discriminate|]. cbn. f_equal. apply IH. lia.
Qed.
Lemma putAll_next : forall m q, (q + m <= length vals)%nat -> forall f : nat -> option V, (forall j, (j < m)%nat -> f j = nth_error vals (q + j)) ->
  putAll V op (B q, q) (map f (seq 0 m)) = Some (B (q + m), (q + m)%nat).
Proof.
  induction m as [|m IH]; intros q H f Hf; [cbn; now rewrite Nat.add_0_r|]. cbn [seq map putAll]. rewrite (Hf 0%nat) by lia. rewrite Nat.add_0_r.
  destruct (nth_error vals q) as [v|] eqn:E; [|apply nth_error_None in E; lia]. rewrite (put_next q v E). rewrite <- seq_shift, map_map.
  rewrite (IH (S q)); [|lia|]; [now replace (S q + m)%nat with (q + S m)%nat by lia|]. intros j Hj. rewrite Hf by lia. f_equal. lia.
Qed.
Lemma range_received : forall (d x : list Z) (pos k a b : nat), (pos + k <= length d)%nat -> (a <= b <= k)%nat ->
  range (firstn k (skipn pos d) ++ x) (Z.of_nat a) (Z.of_nat b) = Some (firstn (b - a) (skipn (pos + a) d)).
Proof.
  intros d x pos k a b HL H. unfold range. destruct (Z.leb_spec (Z.of_nat b) (Z.of_nat a)) as [C|C].
  - replace (b - a)%nat with 0%nat by lia. reflexivity.
  - assert (LK : length (firstn k (skipn pos d)) = k) by (apply length_firstn_le; rewrite skipn_length; lia).
    replace (0 <=? Z.of_nat a) with true by (symmetry; apply Z.leb_le; lia). rewrite app_length, LK. replace (Z.of_nat b <=? Z.of_nat (k + length x)) with true by (symmetry; apply Z.leb_le; lia).
    cbn [andb]. rewrite Nat2Z.id. replace (Z.to_nat (Z.of_nat b - Z.of_nat a)) with (b - a)%nat by lia. f_equal.
    rewrite skipn_app, LK. replace (a - k)%nat with 0%nat by lia. cbn [skipn]. rewrite firstn_app, skipn_length, LK. replace (b - a - (k - a))%nat with 0%nat by lia. rewrite app_nil_r.
    rewrite skipn_firstn_comm, skipn_add, firstn_firstn. f_equal. lia.
Qed.
Lemma zrange_seq : forall m, zrange 0 (Z.of_nat m) = map Z.of_nat (seq 0 m).
Proof.
  intros m. unfold zrange. rewrite Z.sub_0_r, Nat2Z.id. apply nth_ext with (d := 0) (d' := 0); [now rewrite zseq_length, map_length, seq_length|]. rewrite zseq_length. intros i Hi.
  rewrite zseq_nth by auto. rewrite (nth_indep _ 0 (Z.of_nat 0)) by (rewrite map_length, seq_length; auto). rewrite map_nth, seq_nth by auto. lia.
Qed.

Lemma end_pos : forall q h n, (h < w)%nat -> (n * w <= q * w + h <= n * w)%nat -> q = n /\ h = 0%nat.
Proof.
  intros q h n Hh H. destruct (Nat.lt_trichotomy q n) as [L|[E|L]]; [|subst; lia|].
  - assert (S q * w <= n * w)%nat by (apply Nat.mul_le_mono_r; lia). lia.
  - assert (S n * w <= q * w)%nat by (apply Nat.mul_le_mono_r; lia). lia.
Qed.
Lemma loop_spec : forall chunk rest, (0 < chunk)%nat -> forall fuel q h c rb, (h < w)%nat -> (q * w + h <= length vals * w)%nat -> (length vals * w - (q * w + h) <= fuel)%nat ->
  let raw := (length vals * w)%nat in let pos := (q * w + h)%nat in
  let result := recvBinLoop V w dec fuel op true chunk raw pos (Stream (skipn pos data ++ rest) c) rb (firstn h (skipn (q * w) data)) (Z.of_nat h) (B q, q) in
  (fits w pos (ends fuel chunk raw pos c) -> exists c', result = Some (true, map2 op buff vals, Stream rest c')) /\
  (~ fits w pos (ends fuel chunk raw pos c) -> result = None).
Proof.
  intros chunk rest HC. induction fuel as [|fuel IH]; intros q h c rb Hh HP HF raw pos result.
  - assert (pos = raw) by (unfold pos, raw; lia). unfold result. cbn [recvBinLoop ends fits]. rewrite (proj2 (Nat.leb_le raw pos)) by lia. split; [|tauto]. intros _.
    assert (Q : q = length vals /\ h = 0%nat) by (apply end_pos; [exact Hh|]; unfold pos, raw in *; lia). destruct Q as [-> ->]. exists c. cbn [fst]. unfold B.
    rewrite firstn_all2 by (rewrite map2_length; lia). rewrite skipn_all2 by lia. rewrite app_nil_r. rewrite skipn_all2 by (rewrite data_length; unfold pos in *; lia). reflexivity.
  - destruct (Nat.le_gt_cases raw pos) as [DONE|MORE].
    + unfold result. cbn [recvBinLoop ends fits]. rewrite (proj2 (Nat.leb_le raw pos)) by lia. split; [|cbn; tauto]. intros _.
      assert (Q : q = length vals /\ h = 0%nat) by (apply end_pos; [exact Hh|]; unfold pos, raw in *; lia). destruct Q as [-> ->]. exists c. cbn [fst]. unfold B.
      rewrite firstn_all2 by (rewrite map2_length; lia). rewrite skipn_all2 by lia. rewrite app_nil_r. rewrite skipn_all2 by (rewrite data_length; unfold pos in *; lia). reflexivity.
    + unfold result. cbn [recvBinLoop ends]. rewrite (proj2 (Nat.leb_gt raw pos)) by lia. unfold recv. cbn [bytes cuts].
      set (n := Nat.min (raw - pos) chunk). assert (LD : length (skipn pos data) = (raw - pos)%nat) by (rewrite skipn_length, data_length; reflexivity).
      assert (EK : Nat.min n (Nat.min (length (skipn pos data ++ rest)) (Nat.max 1 (hd n c))) = Nat.min n (Nat.max 1 (hd n c))) by (rewrite app_length, LD; unfold n; lia).
      rewrite EK. set (k := Nat.min n (Nat.max 1 (hd n c))). assert (K : (1 <= k <= raw - pos)%nat) by (unfold k, n; lia). clear EK.
      assert (EF : firstn k (skipn pos data ++ rest) = firstn k (skipn pos data)) by (rewrite firstn_app, LD; replace (k - (raw - pos))%nat with 0%nat by lia; apply app_nil_r).
      assert (ES : skipn k (skipn pos data ++ rest) = skipn (pos + k) data ++ rest) by (rewrite skipn_app, LD, skipn_add; replace (k - (raw - pos))%nat with 0%nat by lia; reflexivity).
      rewrite EF, ES. clear EF ES. assert (LK : length (firstn k (skipn pos data)) = k) by (apply length_firstn_le; lia).
      destruct (firstn k (skipn pos data)) as [|x0 r0] eqn:ER; [cbn in LK; lia|]. rewrite <- ER in *. clear x0 r0 ER. rewrite LK. clearbody k n. clear result.
      rewrite !unsigned_mod. assert (PW : (pos + k <= length data)%nat) by (rewrite data_length; unfold raw in *; lia).
      set (X := skipn k rb).
      set (t := if (h =? 0)%nat then 0%nat else (w - h)%nat).
      assert (ET : (Z.of_nat w - Z.of_nat h) mod Z.of_nat w = Z.of_nat t).
      { unfold t. destruct (Nat.eqb_spec h 0) as [->|NZ]; [rewrite Z.sub_0_r; apply Z.mod_same; lia|]. rewrite Z.mod_small by lia. lia. }
      rewrite ET. set (e := if (h =? 0)%nat then 0%nat else 1%nat).
      assert (HT : (h + t = e * w)%nat) by (unfold t, e; destruct (Nat.eqb_spec h 0); lia).
      assert (TW : (t < w)%nat) by (unfold t; destruct (Nat.eqb_spec h 0); lia).
      assert (CEIL : (w * ((pos + w - 1) / w) = pos + t)%nat).
      { assert (D : ((pos + w - 1) / w = q + e)%nat).
        { symmetry. unfold e, pos. destruct (Nat.eqb_spec h 0) as [->|NZ]; [apply Nat.div_unique with (r := (w - 1)%nat)|apply Nat.div_unique with (r := (h - 1)%nat)]; lia. }
        rewrite D. unfold pos. nia. }
      cbn [fits]. rewrite CEIL.
      destruct (Nat.le_gt_cases t k) as [OK|BAD].
      * pose proof (Nat.div_mod (k - t) w ltac:(lia)) as DM. pose proof (Nat.mod_upper_bound (k - t) w ltac:(lia)) as MB.
        set (m := ((k - t) / w)%nat) in *. set (h' := ((k - t) mod w)%nat) in *.
        assert (EH : (Z.of_nat k - Z.of_nat t) mod Z.of_nat w = Z.of_nat h') by (unfold h'; rewrite Nat2Z.inj_mod, Nat2Z.inj_sub by lia; reflexivity).
        rewrite EH. assert (EP : (pos + k = (q + e + m) * w + h')%nat) by (unfold pos; nia).
        assert (QM : (q + e + m <= length vals)%nat) by (unfold raw in *; nia).
        pose proof (range_received data X pos k 0 t PW ltac:(lia)) as R0. rewrite Nat.sub_0_r, Nat.add_0_r in R0. change (Z.of_nat 0) with 0 in R0. rewrite R0. clear R0.
        assert (REM : firstn h (skipn (q * w) data) ++ firstn t (skipn pos data) = firstn (e * w) (skipn (q * w) data)).
        { rewrite <- HT, firstn_add, skipn_add. reflexivity. }
        rewrite REM.
        assert (STEP : (if (length (firstn (e * w) (skipn (q * w) data)) =? w)%nat
                        then match put V op (B q, q) (element V w dec true (firstn (e * w) (skipn (q * w) data))) with Some st1 => Some (st1, []) | None => None end
                        else Some ((B q, q), firstn (e * w) (skipn (q * w) data))) = Some ((B (q + e), (q + e)%nat), [])).
        { unfold e in *. destruct (Nat.eqb_spec h 0) as [->|NZ].
          - cbn [Nat.mul firstn length]. destruct (Nat.eqb_spec 0 w); [lia|]. now rewrite Nat.add_0_r.
          - rewrite Nat.mul_1_l. destruct (nth_error vals q) as [v|] eqn:EV; [|apply nth_error_None in EV; lia]. rewrite (data_slice vals q v EV), enc_length, Nat.eqb_refl.
            unfold element. rewrite dec_enc, (put_next q v EV). now replace (q + 1)%nat with (S q) by lia. }
        rewrite STEP. clear STEP REM.
        assert (CNT : (Z.of_nat k - Z.of_nat h' - Z.of_nat t + Z.of_nat w - 1) / Z.of_nat w = Z.of_nat m).
        { symmetry. apply Z.div_unique with (r := Z.of_nat w - 1); [lia|]. assert (Z.of_nat k = Z.of_nat t + Z.of_nat w * Z.of_nat m + Z.of_nat h') by lia. lia. }
        rewrite CNT, zrange_seq, map_map.
        rewrite (putAll_next m (q + e)); [|lia|].
        -- replace (Z.of_nat k - Z.of_nat h') with (Z.of_nat (k - h')) by nia. rewrite (range_received data X pos k (k - h') k) by lia.
           replace (k - (k - h'))%nat with h' by nia. replace (pos + (k - h'))%nat with ((q + e + m) * w)%nat by nia. cbn [app]. rewrite EP.
           assert (HF' : (length vals * w - ((q + e + m) * w + h') <= fuel)%nat) by (rewrite <- EP; unfold raw, pos in *; lia).
           destruct (IH (q + e + m)%nat h' (tl c) (firstn k (skipn pos data) ++ X) MB ltac:(rewrite <- EP; unfold raw in *; lia) HF') as [I1 I2].
           split; [intros [_ F]; apply I1; exact F|]. intros NF. apply I2. intros F. apply NF. split; [lia|exact F].
        -- intros j Hj. destruct (nth_error vals (q + e + j)) as [v|] eqn:EV; [|apply nth_error_None in EV; lia].
           replace (Z.of_nat t + Z.of_nat j * Z.of_nat w) with (Z.of_nat (t + j * w)) by lia. replace (Z.of_nat (t + j * w) + Z.of_nat w) with (Z.of_nat (t + j * w + w)) by lia.
           rewrite (range_received data X pos k) by nia. replace (t + j * w + w - (t + j * w))%nat with w by lia.
           replace (pos + (t + j * w))%nat with ((q + e + j) * w)%nat by (unfold pos; nia). rewrite (data_slice vals _ v EV). cbn [elementO element]. now rewrite dec_enc.
      * split; [intros [C _]; lia|]. intros _.
        assert (EH : (Z.of_nat k - Z.of_nat t) mod Z.of_nat w = Z.of_nat w + Z.of_nat k - Z.of_nat t).
        { symmetry. apply Z.mod_unique with (q := -1); lia. }
        rewrite EH.
        assert (RN : range (firstn k (skipn pos data) ++ X) (Z.of_nat k - (Z.of_nat w + Z.of_nat k - Z.of_nat t)) (Z.of_nat k) = None).
        { unfold range. destruct (Z.leb_spec (Z.of_nat k) (Z.of_nat k - (Z.of_nat w + Z.of_nat k - Z.of_nat t))); [lia|].
          destruct (Z.leb_spec 0 (Z.of_nat k - (Z.of_nat w + Z.of_nat k - Z.of_nat t))); [lia|]. reflexivity. }
        rewrite RN. repeat match goal with |- match ?x with _ => _ end = None => destruct x; auto end.
Qed.
End Loop.

(** Receiving data sent by sendallBinary from a system of the same byte order gives the values, combined with the contents of the buffer,
    and takes nothing else from the stream, when every call of recv(2) reaches the end of a started element... *)
Theorem C68_receive : forall vals buff little chunksize rest cuts, length buff = length vals -> (0 < chunksize)%nat ->
  fits w 0 (ends (length vals * w) chunksize (length vals * w) 0 (tl cuts)) ->
  exists cuts', recvBinary V w dec op little chunksize (Stream (sendBinary V enc little vals ++ rest) cuts) buff = Some (true, map2 op buff vals, Stream rest cuts').
Proof.
  intros vals buff little chunk rest c HL HC HF. unfold recvBinary. unfold sendBinary. cbn [app]. set (f := if little then 1 else 0).
  assert (E : recvall 1 (Stream (f :: concat (map enc vals) ++ rest) c) = Some ([f], Stream (concat (map enc vals) ++ rest) (tl c))) by (unfold recvall, recvLoop, recv; cbn [bytes cuts length]; replace (Nat.min 1 (Nat.min (S (length (concat (map enc vals) ++ rest))) (Nat.max 1 (hd 1%nat c)))) with 1%nat by lia; reflexivity).
  rewrite E. assert (S1 : Bool.eqb (negb (f =? 0)) little = true) by (unfold f; destruct little; reflexivity). rewrite S1, HL.
  destruct (loop_spec vals buff HL chunk rest HC (length vals * w) 0 0 (tl c) (repeat 0 chunk) w_pos ltac:(lia) ltac:(lia)) as [H1 _]. exact (H1 HF).
Qed.
(** ... and is undefined otherwise: a byte before the receive buffer is read. *)
Theorem C68_small_pieces_refuted : forall vals buff little chunksize rest cuts, length buff = length vals -> (0 < chunksize)%nat ->
  ~ fits w 0 (ends (length vals * w) chunksize (length vals * w) 0 (tl cuts)) ->
  recvBinary V w dec op little chunksize (Stream (sendBinary V enc little vals ++ rest) cuts) buff = None.
Proof.
  intros vals buff little chunk rest c HL HC HF. unfold recvBinary. unfold sendBinary. cbn [app]. set (f := if little then 1 else 0).
  assert (E : recvall 1 (Stream (f :: concat (map enc vals) ++ rest) c) = Some ([f], Stream (concat (map enc vals) ++ rest) (tl c))) by (unfold recvall, recvLoop, recv; cbn [bytes cuts length]; replace (Nat.min 1 (Nat.min (S (length (concat (map enc vals) ++ rest))) (Nat.max 1 (hd 1%nat c)))) with 1%nat by lia; reflexivity).
  rewrite E. assert (S1 : Bool.eqb (negb (f =? 0)) little = true) by (unfold f; destruct little; reflexivity). rewrite S1, HL.
  destruct (loop_spec vals buff HL chunk rest HC (length vals * w) 0 0 (tl c) (repeat 0 chunk) w_pos ltac:(lia) ltac:(lia)) as [_ H2]. exact (H2 HF).
Qed.

(** In particular when recv(2) always delivers a whole element, or all that is missing. *)
Theorem C68_large_pieces : forall vals buff little chunksize rest cuts, length buff = length vals -> (w <= chunksize)%nat -> Forall (fun k => (w <= k)%nat) (tl cuts) ->
  exists cuts', recvBinary V w dec op little chunksize (Stream (sendBinary V enc little vals ++ rest) cuts) buff = Some (true, map2 op buff vals, Stream rest cuts').
Proof.
  intros vals buff little chunk rest c HL HC HF. apply C68_receive; [exact HL|lia|]. revert HF. generalize (tl c) as l. generalize (length vals) at 2 as n.
  generalize (length vals * w)%nat as fuel. assert (H : forall fuel n pos l, Forall (fun k => (w <= k)%nat) l -> fits w pos (ends fuel chunk (n * w) pos l)); [|intros; apply H; assumption].
  induction fuel as [|fuel IH]; intros n pos l HF; [exact I|]. cbn [ends]. destruct (Nat.leb_spec (n * w) pos) as [L|L]; [exact I|]. cbn [fits]. split; [|apply IH; destruct l; [constructor|inversion HF; assumption]].
  assert (C1 : (w * ((pos + w - 1) / w) <= pos + w - 1)%nat) by (apply Nat.mul_div_le; lia).
  assert (C2 : (w * ((pos + w - 1) / w) <= n * w)%nat).
  { rewrite (Nat.mul_comm n). apply Nat.mul_le_mono_l. assert ((pos + w - 1) / w < S n)%nat; [|lia]. apply Nat.div_lt_upper_bound; lia. }
  set (x := Nat.min (n * w - pos) chunk). assert (HD : (x <= hd x l \/ w <= hd x l)%nat) by (destruct l; cbn; [lia|inversion HF; subst; lia]). unfold x in *. lia.
Qed.

Lemma reverse_none : forall raw, length raw = w -> element V w dec false raw = None.
Proof.
  intros raw HL. unfold element, reverseEndianness. rewrite sequenceO_None; auto. apply in_map_iff. exists 0%nat. split; [|apply in_seq; lia].
  apply nth_error_None. lia.
Qed.
Lemma range_length : forall (l : list Z) a, match range l a (a + Z.of_nat w) with Some r => length r = w | None => True end.
Proof.
  intros l a. unfold range. destruct (Z.leb_spec (a + Z.of_nat w) a); [lia|]. destruct (Z.leb_spec 0 a); cbn [andb]; auto. destruct (Z.leb_spec (a + Z.of_nat w) (Z.of_nat (length l))); auto.
  rewrite firstn_length, skipn_length. lia.
Qed.
Lemma elementO_none : forall l a, elementO V w dec false (range l a (a + Z.of_nat w)) = None.
Proof. intros l a. pose proof (range_length l a) as H. destruct (range l a (a + Z.of_nat w)); cbn; auto. now apply reverse_none. Qed.
Lemma put_none : forall st, put V op st None = None.
Proof. intros [b n]. reflexivity. Qed.

(** Data from a system of the other byte order: the first received element makes reverseEndianness read a byte behind the value. *)
Theorem C69_other_byte_order_refuted : forall vals buff little chunksize rest cuts, length buff = length vals -> vals <> [] -> (0 < chunksize)%nat ->
  recvBinary V w dec op little chunksize (Stream (sendBinary V enc (negb little) vals ++ rest) cuts) buff = None.
Proof.
  intros vals buff little chunk rest c HL HV HC. unfold recvBinary, sendBinary. cbn [app]. set (f := if negb little then 1 else 0).
  assert (E : recvall 1 (Stream (f :: concat (map enc vals) ++ rest) c) = Some ([f], Stream (concat (map enc vals) ++ rest) (tl c))) by (unfold recvall, recvLoop, recv; cbn [bytes cuts length]; replace (Nat.min 1 (Nat.min (S (length (concat (map enc vals) ++ rest))) (Nat.max 1 (hd 1%nat c)))) with 1%nat by lia; reflexivity).
  rewrite E. assert (S1 : Bool.eqb (negb (f =? 0)) little = false) by (unfold f; destruct little; reflexivity). rewrite S1, HL. clear E S1 f.
  assert (N1 : (1 <= length vals)%nat) by (destruct vals; [congruence|cbn; lia]).
  pose proof (data_length vals) as DL. set (data := concat (map enc vals)) in *. clearbody data. set (raw := (length vals * w)%nat) in *.
  assert (RW : (w <= raw)%nat) by (unfold raw; nia). clearbody raw. generalize (repeat 0 chunk) as rb. intros rb.
  assert (SECOND : forall fuel h b c rb rem st, (0 < h < w)%nat -> length rem = h -> (raw - h <= length b)%nat -> recvBinLoop V w dec fuel op false chunk raw h (Stream b c) rb rem (Z.of_nat h) st = None).
  { intros fuel h b c0 rb0 rem st Hh LR HB. destruct fuel as [|fuel]; cbn [recvBinLoop]; rewrite (proj2 (Nat.leb_gt raw h)) by lia; auto.
    destruct (recv_spec (Nat.min (raw - h) chunk) b c0) as (k & K1 & K2 & E); [lia|destruct b; cbn in *; [lia|discriminate]|]. rewrite E. clear E.
    pose proof (length_firstn_le _ k b K2) as LK. destruct (firstn k b) as [|x0 r0] eqn:ER; [cbn in LK; lia|]. rewrite LK. rewrite !unsigned_mod.
    rewrite (Z.mod_small (Z.of_nat w - Z.of_nat h)) by lia. set (X := (x0 :: r0) ++ skipn k rb0).
    unfold range at 1. destruct (Z.leb_spec (Z.of_nat w - Z.of_nat h) 0); [lia|]. destruct (Z.leb_spec 0 0); [|lia]. cbn [andb]. destruct (Z.leb_spec (Z.of_nat w - Z.of_nat h) (Z.of_nat (length X))) as [LX|]; auto.
    assert (L1 : length (rem ++ firstn (Z.to_nat (Z.of_nat w - Z.of_nat h - 0)) (skipn (Z.to_nat 0) X)) = w) by (rewrite app_length, firstn_length, skipn_length; lia).
    rewrite L1, Nat.eqb_refl, reverse_none, put_none by exact L1. reflexivity. }
  remember raw as fuel eqn:EF in |- * at 1. assert (HF : (0 < fuel)%nat) by lia. clear EF. destruct fuel as [|fuel]; [lia|]. cbn [recvBinLoop]. rewrite (proj2 (Nat.leb_gt raw 0)) by lia.
  destruct (recv_spec (Nat.min (raw - 0) chunk) (data ++ rest) (tl c)) as (k & K1 & K2 & E); [lia|destruct data; cbn in *; [lia|discriminate]|]. rewrite E. clear E.
  pose proof (length_firstn_le _ k (data ++ rest) K2) as LK. destruct (firstn k (data ++ rest)) as [|x0 r0] eqn:ER; [cbn in LK; lia|]. rewrite <- ER in *. clear ER. rewrite LK. rewrite !unsigned_mod.
  rewrite Z.sub_0_r, Z.mod_same, !Z.sub_0_r by lia. set (X := firstn k (data ++ rest) ++ skipn k rb).
  assert (R0 : range X 0 0 = Some []) by reflexivity. rewrite R0. cbn [app length]. destruct (Nat.eqb_spec 0 w); [lia|].
  pose proof (Z.div_mod (Z.of_nat k) (Z.of_nat w) ltac:(lia)) as DM. pose proof (Z.mod_pos_bound (Z.of_nat k) (Z.of_nat w) ltac:(lia)) as MB.
  assert (CNT : (Z.of_nat k - Z.of_nat k mod Z.of_nat w + Z.of_nat w - 1) / Z.of_nat w = Z.of_nat k / Z.of_nat w).
  { symmetry. apply Z.div_unique with (r := Z.of_nat w - 1); lia. }
  rewrite CNT. clear CNT. destruct (Nat.le_gt_cases w k) as [LE|GT].
  - assert (1 <= Z.of_nat k / Z.of_nat w) by (apply Z.div_le_lower_bound; lia). rewrite zrange_cons by lia. cbn [map putAll]. rewrite Z.add_0_l, elementO_none, put_none. reflexivity.
  - rewrite Z.div_small by lia. rewrite (zrange_nil 0 0) by lia. cbn [map putAll]. rewrite Z.mod_small by lia. rewrite Z.sub_diag. destruct (range X 0 (Z.of_nat k)) as [hd0|] eqn:EH; auto.
    assert (LH : length hd0 = k).
    { unfold range in EH. destruct (Z.leb_spec (Z.of_nat k) 0); [lia|]. destruct (Z.leb_spec 0 0); [|lia]. cbn [andb] in EH. destruct (Z.leb_spec (Z.of_nat k) (Z.of_nat (length X))); [|discriminate]. injection EH as <-. rewrite firstn_length, ?skipn_length. lia. }
    apply SECOND; [lia|exact LH|]. rewrite skipn_length, app_length. lia.
Qed.
End Binary.

(** Examples: 4-byte numbers; the second call ends inside of an element that it has not started, or not. *)
Definition enc4 (v : Z) : list Z := [v mod 256; (v / 256) mod 256; (v / 65536) mod 256; v / 16777216].
Definition dec4 (l : list Z) : Z := fold_right (fun c a => c + 256 * a) 0 l.
Lemma dec4_enc4 : forall v, dec4 (enc4 v) = v.
Proof.
  intros v. unfold dec4, enc4. cbn [fold_right]. pose proof (Z.div_mod v 256 ltac:(lia)). pose proof (Z.div_mod (v / 256) 256 ltac:(lia)). pose proof (Z.div_mod (v / 65536) 256 ltac:(lia)).
  rewrite (Z.div_div v 256 256) in * by lia. rewrite (Z.div_div v 65536 256) in * by lia. cbn [Z.mul Pos.mul] in *. lia.
Qed.
Example C68_example_meets : (Z.of_nat 4 | 2 ^ 64) /\ (forall v, length (enc4 v) = 4%nat) /\ (forall v, dec4 (enc4 v) = v) /\
  fits 4 0 (ends (3 * 4) 1000 (3 * 4) 0 (tl [1; 3; 7; 2]%nat)) /\ ~ fits 4 0 (ends (3 * 4) 1000 (3 * 4) 0 (tl [1; 2; 1; 9]%nat)).
Proof. split; [exists (2 ^ 62); reflexivity|]. split; [reflexivity|]. split; [exact dec4_enc4|]. vm_compute. split; [repeat split; repeat constructor|]. intros [_ [H _]]. repeat (apply le_S_n in H). inversion H. Qed.
Example C68_example : let s c := Stream (sendBinary Z enc4 true [70000; 5; 999999] ++ [77]) c in
  match recvBinary Z 4 dec4 Z.add true 1000 (s [1; 3; 7; 2]%nat) [1; 2; 3] with Some (ok, b, s') => ok = true /\ b = [70001; 7; 1000002] /\ bytes s' = [77] | None => False end /\
  recvBinary Z 4 dec4 Z.add true 1000 (s [1; 2; 1; 9]%nat) [1; 2; 3] = None.
Proof. vm_compute. repeat split; reflexivity. Qed.

Print Assumptions C66_message.
Print Assumptions C66_messages.
Print Assumptions C66_number.
Print Assumptions C66_long_message_refuted.
Print Assumptions C66_closed.
Print Assumptions C67_forward.
Print Assumptions C68_receive.
Print Assumptions C68_small_pieces_refuted.
Print Assumptions C68_large_pieces.
Print Assumptions C69_other_byte_order_refuted.
