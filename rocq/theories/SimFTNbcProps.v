(** C113: bit flips. C114: completion of non-blocking collectives. *)
From Verif Require Import Base SimFTModel SimFTProofs SimFTProps SimFTNbcModel.
Open Scope Z_scope.
Ltac Zify.zify_post_hook ::= idtac.

(** ** Bit flips *)
(** Bit [p] of the array, from the most significant bit of its first element. *)
Definition bitAt (arr : list Z) (p : nat) : bool := Z.testbit (nth (p / 32) arr 0) (31 - Z.of_nat (p mod 32)).

Lemma setNth_length : forall l i x, length (setNth l i x) = length l.
Proof.
  intros l i x. unfold setNth. rewrite app_length, firstn_length. assert (E := skipn_length i l). destruct (skipn i l) as [|y r]; cbn [length] in *; lia.
Qed.
Lemma setNth_nth : forall l i x j, (i < length l)%nat -> nth j (setNth l i x) 0 = if Nat.eqb j i then x else nth j l 0.
Proof.
  induction l as [|y l IH]; intros i x j H; cbn [length] in H; [lia|]. destruct i as [|i], j as [|j]; try reflexivity.
  change (setNth (y :: l) (S i) x) with (y :: setNth l i x). cbn [nth]. rewrite IH by lia. reflexivity.
Qed.
Lemma div_mod_eq : forall p q : nat, (p / 32 = q / 32 -> p mod 32 = q mod 32 -> p = q)%nat.
Proof. intros p q H1 H2. rewrite (Nat.div_mod p 32), (Nat.div_mod q 32), H1, H2 by lia. reflexivity. Qed.
Lemma flipBit_length : forall arr p, length (flipBit arr p) = length arr.
Proof. intros. apply setNth_length. Qed.
Lemma flipBit_bit : forall arr p q, (p < 32 * length arr)%nat -> bitAt (flipBit arr p) q = if Nat.eqb q p then negb (bitAt arr q) else bitAt arr q.
Proof.
  intros arr p q H. unfold bitAt, flipBit. assert (HL : (p / 32 < length arr)%nat) by (apply Nat.div_lt_upper_bound; lia). rewrite setNth_nth by auto.
  assert (M := Nat.mod_upper_bound p 32 ltac:(lia)). assert (M' := Nat.mod_upper_bound q 32 ltac:(lia)).
  destruct (Nat.eqb_spec (q / 32) (p / 32)) as [E|E].
  - rewrite Z.lxor_spec, Z.shiftl_1_l, Z.pow2_bits_eqb by lia. rewrite E. destruct (Nat.eqb_spec q p) as [->|NE].
    + rewrite Z.eqb_refl, xorb_true_r. reflexivity.
    + destruct (Z.eqb_spec (31 - Z.of_nat (p mod 32)) (31 - Z.of_nat (q mod 32))) as [E2|E2]; [|apply xorb_false_r].
      exfalso. apply NE. apply div_mod_eq; auto. lia.
  - destruct (Nat.eqb_spec q p) as [->|NE]; [congruence|reflexivity].
Qed.
Lemma swap_length : forall l i j, length (swapNth l i j) = length l.
Proof. intros. unfold swapNth. now rewrite map_length, seq_length. Qed.
Lemma swap_nth : forall l i j m, (m < length l)%nat -> nth m (swapNth l i j) O = if Nat.eqb m i then nth j l O else if Nat.eqb m j then nth i l O else nth m l O.
Proof.
  intros l i j m H. unfold swapNth. set (f := fun m => if Nat.eqb m i then nth j l O else if Nat.eqb m j then nth i l O else nth m l O).
  rewrite (nth_indep _ O (f O)) by now rewrite map_length, seq_length. rewrite map_nth, seq_nth by auto. reflexivity.
Qed.
Definition inj (l : list nat) : Prop := forall a b, (a < length l)%nat -> (b < length l)%nat -> nth a l O = nth b l O -> a = b.
Lemma swap_inj : forall l i j, (i < length l)%nat -> (j < length l)%nat -> inj l -> inj (swapNth l i j).
Proof.
  intros l i j Hi Hj HI a b Ha Hb. rewrite swap_length in *. rewrite !swap_nth by auto.
  destruct (Nat.eqb_spec a i), (Nat.eqb_spec b i), (Nat.eqb_spec a j), (Nat.eqb_spec b j); subst; intros E; auto; apply HI in E; auto; congruence.
Qed.
Lemma swap_in : forall l i j x, (i < length l)%nat -> (j < length l)%nat -> In x (swapNth l i j) -> In x l.
Proof.
  intros l i j x Hi Hj H. unfold swapNth in H. apply in_map_iff in H. destruct H as (m & <- & Hm). apply in_seq in Hm.
  destruct (Nat.eqb m i); [now apply nth_In|]. destruct (Nat.eqb m j); apply nth_In; lia.
Qed.
(** The bits that a run of the loop flips, in order. *)
Fixpoint flipped (i : nat) (choices bits : list nat) : list nat :=
  match choices with [] => [] | c :: cs => let bits' := swapNth bits i c in nth i bits' O :: flipped (S i) cs bits' end.
Lemma flipped_length : forall cs i bits, length (flipped i cs bits) = length cs.
Proof. induction cs as [|c cs IH]; intros i bits; cbn [flipped length]; auto. Qed.
Lemma flipped_in : forall cs i bits x, inj bits -> validChoices i (length bits) cs -> In x (flipped i cs bits) -> exists m, (i <= m < length bits)%nat /\ x = nth m bits O.
Proof.
  induction cs as [|c cs IH]; intros i bits x HI HV HX; [contradiction|]. destruct HV as [Hc HV]. cbn [flipped] in HX. cbv zeta in HX.
  destruct HX as [<-|HX].
  - exists c. split; auto. rewrite swap_nth by lia. now rewrite Nat.eqb_refl.
  - apply IH in HX; [|apply swap_inj; auto; lia|now rewrite swap_length]. destruct HX as (m & Hm & ->). rewrite swap_length in Hm. rewrite swap_nth by lia.
    destruct (Nat.eqb_spec m i); [lia|]. destruct (Nat.eqb_spec m c); [exists i; split; auto; lia|exists m; split; auto; lia].
Qed.
Lemma flipped_NoDup : forall cs i bits, inj bits -> validChoices i (length bits) cs -> NoDup (flipped i cs bits).
Proof.
  induction cs as [|c cs IH]; intros i bits HI HV; [constructor|]. destruct HV as [Hc HV]. cbn [flipped]. cbv zeta.
  assert (HI' : inj (swapNth bits i c)) by (apply swap_inj; auto; lia). constructor; [|apply IH; auto; now rewrite swap_length].
  intros HX. apply flipped_in in HX; auto; [|now rewrite swap_length]. destruct HX as (m & Hm & E). rewrite swap_length in Hm. apply HI' in E; try rewrite swap_length; lia.
Qed.
Lemma flipLoop_bits : forall cs i bits arr, inj bits -> validChoices i (length bits) cs -> (forall x, In x bits -> (x < 32 * length arr)%nat) ->
  length (flipLoop i cs bits arr) = length arr /\
  (forall q, bitAt (flipLoop i cs bits arr) q = if in_dec Nat.eq_dec q (flipped i cs bits) then negb (bitAt arr q) else bitAt arr q).
Proof.
  induction cs as [|c cs IH]; intros i bits arr HI HV HB.
  - split; [reflexivity|]. intros q. destruct (in_dec _ _ _) as [[]|]; reflexivity.
  - assert (HN := flipped_NoDup (c :: cs) i bits HI HV). destruct HV as [Hc HV]. cbn [flipLoop flipped] in *. cbv zeta in *.
    set (bits' := swapNth bits i c) in *. set (p := nth i bits' O) in *.
    assert (HL : length bits' = length bits) by apply swap_length.
    assert (Hp : (p < 32 * length arr)%nat).
    { apply HB. apply (swap_in bits i c); try lia. apply nth_In. fold bits'. lia. }
    destruct (IH (S i) bits' (flipBit arr p)) as [I1 I2].
    { apply swap_inj; auto; lia. } { now rewrite HL. } { intros x Hx. rewrite flipBit_length. apply HB. apply (swap_in bits i c); auto; lia. }
    rewrite flipBit_length in I1. split; [exact I1|]. intros q. rewrite I2, flipBit_bit by auto. inversion HN as [|? ? NI _]; subst.
    destruct (in_dec Nat.eq_dec q (flipped (S i) cs bits')) as [HF|HF], (in_dec Nat.eq_dec q (p :: flipped (S i) cs bits')) as [HG|HG]; cbn [In] in HG;
      destruct (Nat.eqb_spec q p) as [->|NE]; auto; exfalso; try tauto; destruct HG as [HG|HG]; congruence.
Qed.
Lemma inj_seq : forall n, inj (seq 0 n).
Proof. intros n a b Ha Hb E. rewrite seq_length in *. rewrite !seq_nth in E by auto. lia. Qed.

(** Exactly as many bits as there are random numbers are flipped, and no other bit changes. *)
Theorem C113_number_of_flips : forall arr choices arr', validChoices 0 (32 * length arr) choices -> manipulateBits arr choices = Some arr' ->
  length arr' = length arr /\ exists ps, NoDup ps /\ length ps = length choices /\ (forall p, In p ps -> (p < 32 * length arr)%nat) /\
    forall q, bitAt arr' q = if in_dec Nat.eq_dec q ps then negb (bitAt arr q) else bitAt arr q.
Proof.
  intros arr choices arr' HV HM. unfold manipulateBits in HM. destruct (_ <? _); [|discriminate]. injection HM as <-.
  assert (HI := inj_seq (32 * length arr)). assert (HV' : validChoices 0 (length (seq 0 (32 * length arr))) choices) by now rewrite seq_length.
  destruct (flipLoop_bits choices 0 (seq 0 (32 * length arr)) arr HI HV') as [H1 H2]; [intros x Hx; apply in_seq in Hx; lia|].
  split; [exact H1|]. exists (flipped 0 choices (seq 0 (32 * length arr))). split; [now apply flipped_NoDup|]. split; [apply flipped_length|]. split; [|exact H2].
  intros p Hp. apply flipped_in in Hp; auto. destruct Hp as (m & Hm & ->). rewrite seq_length in Hm. rewrite seq_nth; lia.
Qed.
(** All other bits of an element, in particular those above the 32nd, are kept: elements stay ints. *)
Theorem C113_in_range : forall arr p i, (p < 32 * length arr)%nat -> (forall j, 0 <= nth j arr 0 < 2 ^ 32) -> 0 <= nth i (flipBit arr p) 0 < 2 ^ 32.
Proof.
  intros arr p i Hp HR. unfold flipBit. assert (HL : (p / 32 < length arr)%nat) by (apply Nat.div_lt_upper_bound; lia). rewrite setNth_nth by auto.
  destruct (Nat.eqb i (p / 32)); [|apply HR]. assert (M := Nat.mod_upper_bound p 32 ltac:(lia)). specialize (HR (p / 32)%nat).
  assert (NN : 0 <= Z.lxor (nth (p / 32) arr 0) (Z.shiftl 1 (31 - Z.of_nat (p mod 32)))).
  { apply Z.lxor_nonneg. split; intros _; [apply Z.shiftl_nonneg; lia|lia]. }
  split; [exact NN|]. destruct (Z.eq_dec (Z.lxor (nth (p / 32) arr 0) (Z.shiftl 1 (31 - Z.of_nat (p mod 32)))) 0) as [->|NZ]; [lia|].
  apply Z.log2_lt_pow2; [lia|]. eapply Z.le_lt_trans; [apply Z.log2_lxor; [lia|apply Z.shiftl_nonneg; lia]|].
  apply Z.max_lub_lt; [|rewrite Z.shiftl_1_l, Z.log2_pow2 by lia; lia].
  destruct (Z.eq_dec (nth (p / 32) arr 0) 0) as [->|NZ']; [cbn; lia|]. apply Z.log2_lt_pow2; lia.
Qed.
(** Flipping a bit twice restores it, and every set of bits can be hit. *)
Theorem C113_twice : forall arr p q, (p < 32 * length arr)%nat -> bitAt (flipBit (flipBit arr p) p) q = bitAt arr q.
Proof.
  intros arr p q H. rewrite !flipBit_bit by (rewrite ?flipBit_length; auto). destruct (Nat.eqb q p); auto. apply negb_involutive.
Qed.
Theorem C113_any_bits : forall arr ps, 32 * Z.of_nat (length arr) < 2 ^ 31 -> NoDup ps -> (forall p, In p ps -> (p < 32 * length arr)%nat) ->
  exists choices arr', validChoices 0 (32 * length arr) choices /\ manipulateBits arr choices = Some arr' /\
    forall q, bitAt arr' q = if in_dec Nat.eq_dec q ps then negb (bitAt arr q) else bitAt arr q.
Proof.
  intros arr ps HL ND HP.
  assert (G : forall ps i bits, NoDup ps -> (forall p, In p ps -> exists m, (i <= m < length bits)%nat /\ nth m bits O = p) ->
    exists cs, validChoices i (length bits) cs /\ flipped i cs bits = ps).
  { clear. induction ps as [|p ps IH]; intros i bits ND HP; [exists []; split; [exact I|reflexivity]|]. inversion ND as [|? ? NI ND']; subst.
    destruct (HP p (or_introl eq_refl)) as (m & Hm & E). destruct (IH (S i) (swapNth bits i m) ND') as (cs & H1 & H2).
    - intros q Hq. destruct (HP q (or_intror Hq)) as (l & Hl & F). rewrite swap_length. assert (NE : l <> m) by (intros ->; rewrite E in F; subst; contradiction).
      destruct (Nat.eq_dec l i) as [->|NI2].
      + exists m. split; [lia|]. rewrite swap_nth by lia. destruct (Nat.eqb_spec m i); [lia|]. rewrite Nat.eqb_refl. exact F.
      + exists l. split; [lia|]. rewrite swap_nth by lia. destruct (Nat.eqb_spec l i); [lia|]. destruct (Nat.eqb_spec l m); [lia|]. exact F.
    - exists (m :: cs). rewrite swap_length in H1. split; [split; auto|]. cbn [flipped]. cbv zeta. rewrite H2. f_equal. rewrite swap_nth by lia. now rewrite Nat.eqb_refl. }
  destruct (G ps O (seq 0 (32 * length arr)) ND) as (cs & H1 & H2).
  { intros p Hp. apply HP in Hp. exists p. rewrite seq_length, seq_nth by auto. split; [lia|reflexivity]. }
  exists cs. eexists. rewrite seq_length in H1. split; [exact H1|]. unfold manipulateBits. rewrite (proj2 (Z.ltb_lt _ _) HL). split; [reflexivity|].
  rewrite <- H2. apply (flipLoop_bits cs 0 (seq 0 (32 * length arr)) arr); [apply inj_seq|now rewrite seq_length|intros x Hx; apply in_seq in Hx; lia].
Qed.
(** Arrays of 2^26 ints or more have too many bits for an int. *)
Theorem C113_large_refuted : forall arr choices, 2 ^ 26 <= Z.of_nat (length arr) -> manipulateBits arr choices = None.
Proof. intros arr choices H. unfold manipulateBits. destruct (Z.ltb_spec (32 * Z.of_nat (length arr)) (2 ^ 31)); [lia|reflexivity]. Qed.

(** ** Completion of non-blocking collectives *)
Definition prefix (a b : list coll) : Prop := exists c, b = a ++ c.
(** Collectives whose record is complete: barriers, and broadcasts of the known datatypes. *)
Definition supported (c : coll) : Prop :=
  match c with IBarrier => True | IBcast count t _ => 0 <= count /\ (t = TChar \/ t = TInt \/ t = TDouble) | IAllreduce _ _ _ => False end.
Lemma perform_record : forall c, supported c -> performOne (recordOf c) = Some c.
Proof.
  intros [|count t root|count t op] H; cbn [supported] in H; [reflexivity| |contradiction]. destruct H as [H Ht].
  cbn [recordOf]. unfold performOne. cbn [iType iCount iDatatype iRoot]. destruct (Z.ltb_spec count 0); [lia|]. destruct Ht as [->|[->| ->]]; reflexivity.
Qed.
Lemma performAll_record : forall l, Forall supported l -> performAll (map recordOf l) = Some l.
Proof. intros l H. induction H as [|c l Hc H IH]; [reflexivity|]. cbn [map performAll]. now rewrite perform_record, IH. Qed.
Lemma completed_own : forall own c, Forall supported (own ++ c) -> completed own (nbcToVector (map recordOf (own ++ c))) = Some (own ++ c).
Proof.
  intros own c H. unfold completed. rewrite C112_nbc_round_trip. unfold performMissing. rewrite map_length, app_length.
  destruct (Nat.ltb_spec (length own) (length own + length c)) as [L|L].
  - rewrite skipn_map, skipn_app, skipn_all, Nat.sub_diag, skipn_O. cbn [app]. apply Forall_app in H. now rewrite performAll_record.
  - destruct c; [now rewrite app_nil_r|cbn in L; lia].
Qed.

(** All processes, dead or alive, call the same collectives before the communicator is freed, if all have called the beginning of one sequence:
    the rank that the root asks has called the most, the root sends its list to all, and each calls what is missing. *)
Theorem C114_all_complete_partial : forall root n k procs (pending : Z -> list coll) all v p dead st r, 0 <= root < n -> (0 < k)%nat -> reduces root n k procs root v ->
  (forall x, 0 <= x < n -> numNBC (procs x) = Z.of_nat (length (pending x)) /\ prefix (pending x) all) -> Forall supported all ->
  (if isDead p then rOp v else nextOp p) = commFree -> deadNodes st = firstn (length (deadNodes st)) dead -> nbcVector st = [] -> 0 <= r < n ->
  exists ret st', handleMessage st (rootMessage p v dead (longestVector pending v)) = Some (ret, st') /\
    completed (pending r) (nbcVector st') = Some (pending (rRank v)) /\ completed (pending root) (longestVector pending v) = Some (pending (rRank v)) /\ forall x, 0 <= x < n -> prefix (pending x) (pending (rRank v)).
Proof.
  intros root n k procs pending all v p dead st r Hr Hk HR HP HS HO HD HN Hx. destruct (C112_reduce root n k procs v Hr Hk HR) as (_ & R2 & R3 & R4).
  assert (PL : forall x, 0 <= x < n -> prefix (pending x) (pending (rRank v))).
  { intros x Hx2. destruct (HP x Hx2) as [E1 (c1 & P1)]. destruct (HP _ R3) as [E2 (c2 & P2)]. specialize (R2 x Hx2). rewrite <- R4, E1, E2 in R2.
    exists (skipn (length (pending x)) (pending (rRank v))). rewrite <- (firstn_skipn (length (pending x)) (pending (rRank v))) at 1. f_equal.
    assert (E : firstn (length (pending x)) (pending (rRank v)) = firstn (length (pending x)) all).
    { rewrite P2, firstn_app. replace (length (pending x) - length (pending (rRank v)))%nat with O by lia. now rewrite firstn_O, app_nil_r. }
    rewrite E, P1, firstn_app, Nat.sub_diag, firstn_O, app_nil_r. apply firstn_all. }
  destruct (C112_same_knowledge p v dead (longestVector pending v) st HD) as (ret & st' & H1 & _ & _ & _ & H5 & _); [rewrite HO; discriminate|].
  assert (SUP : Forall supported (pending (rRank v))) by (destruct (HP _ R3) as [_ (c2 & P2)]; rewrite P2 in HS; now apply Forall_app in HS).
  exists ret, st'. split; [exact H1|]. split; [|split; [|exact PL]].
  2: { destruct (PL root Hr) as (c & E). unfold longestVector. rewrite E in *. now apply completed_own. }
  destruct (PL r Hx) as (c & E).
  rewrite E in *. destruct (pending r ++ c) as [|y l] eqn:EL.
  - apply app_eq_nil in EL. destruct EL as [EL _]. rewrite EL. unfold rootMessage, longestVector in H1. rewrite E in H1. cbn [map nbcToVector flat_map] in H1.
    assert (NB : nbcVector st' = []); [|rewrite NB; reflexivity].
    cbv zeta in H1. rewrite HO, Z.eqb_refl in H1. unfold handleMessage in H1. injection H1 as _ H1. subst st'. cbn [nbcVector]. rewrite app_nil_r. cbn [length].
    rewrite Z.gtb_ltb. match goal with |- context [?a <? ?b] => destruct (Z.ltb_spec a b) end; [lia|exact HN].
  - rewrite H5; [|exact HO|unfold longestVector; rewrite E; destruct y; discriminate]. unfold longestVector. rewrite E, <- EL. apply completed_own. now rewrite EL.
Qed.
(** Not with MPI_Iallreduce, whose number of elements is not stored: the program ends on every process that has not called it. *)
Theorem C114_allreduce_refuted : forall count t op own, completed own (nbcToVector (map recordOf (own ++ [IAllreduce count t op]))) = None.
Proof.
  intros count t op own. unfold completed. rewrite C112_nbc_round_trip. unfold performMissing. rewrite map_length, app_length. cbn [length].
  destruct (Nat.ltb_spec (length own) (length own + 1)); [|lia]. rewrite skipn_map, skipn_app, skipn_all, Nat.sub_diag, skipn_O. reflexivity.
Qed.
(** Nor with other datatypes, for which a different call is made. *)
Theorem C114_datatype_refuted : forall count id root own, 0 <= count ->
  completed own (nbcToVector (map recordOf (own ++ [IBcast count (TOther id) root]))) = Some (own ++ [IBcast count TInt root]).
Proof.
  intros count id root own H. unfold completed. rewrite C112_nbc_round_trip. unfold performMissing. rewrite map_length, app_length. cbn [length].
  destruct (Nat.ltb_spec (length own) (length own + 1)); [|lia]. rewrite skipn_map, skipn_app, skipn_all, Nat.sub_diag, skipn_O.
  cbn [app map recordOf dtypeOf performAll]. unfold performOne. cbn [iType iCount iDatatype iRoot Z.eqb]. destruct (Z.ltb_spec count 0); [lia|reflexivity].
Qed.

(** Two ints, three flips, one of them of a sign bit. *)
Example C113_ex : manipulateBits [5; 7] [32; 1; 63]%nat = Some [1073741829; 2147483654] /\ validChoices 0 64 [32; 1; 63]%nat.
Proof. split; [vm_compute; reflexivity|]. cbn. lia. Qed.
(** Three processes with zero, one and two of two collectives. *)
Definition exCalls : list coll := [IBarrier; IBcast 4 TDouble 1].
Definition exPending (r : Z) : list coll := firstn (Z.to_nat r) exCalls.
Example C114_ex_hyps : Forall supported exCalls /\ (forall x, 0 <= x < 3 -> prefix (exPending x) exCalls) /\
  exists v, reduces 0 3 6 (fun r => SP (r =? 1) (Z.of_nat (length (exPending r))) 3) 0 v.
Proof.
  split; [repeat constructor; auto; lia|]. split; [|apply reduces_all; [lia|lia|vm_compute; reflexivity|lia]].
  intros x _. exists (skipn (Z.to_nat x) exCalls). symmetry. apply firstn_skipn.
Qed.
Example C114_ex : forall r, In r [0; 1; 2] -> completed (exPending r) (longestVector exPending (RV 1 2 2 3)) = Some exCalls.
Proof. intros r [<-|[<-|[<-|[]]]]; vm_compute; reflexivity. Qed.

Print Assumptions C113_number_of_flips.
Print Assumptions C113_in_range.
Print Assumptions C113_twice.
Print Assumptions C113_any_bits.
Print Assumptions C113_large_refuted.
Print Assumptions C114_all_complete_partial.
Print Assumptions C114_allreduce_refuted.
Print Assumptions C114_datatype_refuted.
Print Assumptions C113_ex.
Print Assumptions C114_ex_hyps.
Print Assumptions C114_ex.
