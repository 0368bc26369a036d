(** C110: time measurements and the files they are written to. *)
From Coq Require Import String.
From Verif Require Import Base StatsModel.
From Coq Require Import Permutation Sorted.
Open Scope Z_scope.
Ltac Zify.zify_post_hook ::= idtac.

(** ** JSON values and how they are written. *)
Inductive json := JNum (z : Z) | JText (s : string) | JArr (l : list json) | JObj (l : list (SKey * json)).
Fixpoint sepBy (l : list (list STok)) : list STok :=
  match l with [] => [] | x :: r => x ++ match r with [] => [] | _ => TComma :: sepBy r end end.
Fixpoint jtoks (j : json) : list STok :=
  match j with
  | JNum z => [TNum z]
  | JText s => [TKey (KName s)]
  | JArr l => TArr :: sepBy (map jtoks l) ++ [TEndArr]
  | JObj l => TObj :: sepBy (map (fun p => TKey (fst p) :: TColon :: jtoks (snd p)) l) ++ [TEndObj]
  end.

(** Microseconds since [t0]. *)
Definition micro (t0 : Z) (e : Z * Z) : Z * Z := (Z.quot (fst e - t0) 1000, Z.quot (snd e - t0) 1000).
Definition jpair (p : Z * Z) : json := JArr [JNum (fst p); JNum (snd p)].

(** What a report of a process has to say: all events, or those that ended after [until], names without such an event left out. *)
Definition fullReport (t0 : Z) (ev : list (string * list (Z * Z))) : list (string * list (Z * Z)) :=
  map (fun ne => (fst ne, map (micro t0) (snd ne))) ev.
Definition newReport (t0 until : Z) (ev : list (string * list (Z * Z))) : list (string * list (Z * Z)) :=
  filter (fun ne => match snd ne with [] => false | _ => true end)
    (map (fun ne => (fst ne, map (micro t0) (filter (fun e => negb (snd e =? fst e) && (until <? snd e)) (snd ne)))) ev).

Definition rankJson (rank : Z) (attrs : list (string * string)) (report : list (string * list (Z * Z))) : SKey * json :=
  (KRank rank, JObj [(KName "attributes", JObj (map (fun a => (KName (fst a), JText (snd a))) attrs));
                     (KName "events", JObj (map (fun ne => (KName (fst ne), JArr (map jpair (snd ne)))) report))]).

Fixpoint mapRanks {A B} (f : Z -> A -> B) (r : Z) (l : list A) : list B := match l with [] => [] | x :: l' => f r x :: mapRanks f (r + 1) l' end.

Lemma sepBy_cons : forall x r, sepBy (x :: r) = x ++ concat (map (cons TComma) r).
Proof.
  intros x r. revert x. induction r as [|y r IH]; intros x; cbn [sepBy map concat]; auto. cbn [sepBy] in IH. rewrite IH. cbn [app]. reflexivity.
Qed.

Lemma attrTokens_sep : forall l count size, (count + length l = size)%nat ->
  attrTokens count size l = sepBy (map (fun p => TKey (fst p) :: TColon :: jtoks (snd p)) (map (fun a => (KName (fst a), JText (snd a))) l)).
Proof.
  induction l as [|[n v] l IH]; intros count size H; cbn [attrTokens map sepBy length] in *; auto.
  rewrite (IH (S count) size) by lia. destruct l as [|a l]; cbn [length map] in *.
  - replace (Nat.eqb (S count) size) with true by (symmetry; apply Nat.eqb_eq; lia). cbn. reflexivity.
  - replace (Nat.eqb (S count) size) with false by (symmetry; apply Nat.eqb_neq; lia). reflexivity.
Qed.
Lemma entryTokens_json : forall t0 e, entryTokens t0 e = jtoks (jpair (micro t0 e)).
Proof. reflexivity. Qed.
Lemma entriesTokens_sep : forall t0 l count size, (count + length l = size)%nat ->
  entriesTokens t0 count size l = sepBy (map jtoks (map jpair (map (micro t0) l))).
Proof.
  intros t0. induction l as [|e l IH]; intros count size H; cbn [entriesTokens map sepBy length] in *; auto.
  rewrite (IH (S count) size) by lia. rewrite entryTokens_json. destruct l as [|a l]; cbn [length map] in *.
  - replace (Nat.eqb (S count) size) with true by (symmetry; apply Nat.eqb_eq; lia). cbn. reflexivity.
  - replace (Nat.eqb (S count) size) with false by (symmetry; apply Nat.eqb_neq; lia). reflexivity.
Qed.
Definition namedToks (ne : string * list (Z * Z)) : list STok := TKey (KName (fst ne)) :: TColon :: jtoks (JArr (map jpair (snd ne))).
Lemma eventsTokens_sep : forall t0 l count size, (count + length l = size)%nat ->
  eventsTokens t0 count size l = sepBy (map namedToks (fullReport t0 l)).
Proof.
  intros t0. induction l as [|[n es] l IH]; intros count size H; cbn [eventsTokens fullReport map sepBy length] in *; auto.
  rewrite (IH (S count) size) by lia. rewrite entriesTokens_sep by lia.
  change (map (fun ne => (fst ne, map (micro t0) (snd ne))) l) with (fullReport t0 l).
  change (namedToks (fst (n, es), map (micro t0) (snd (n, es)))) with (TKey (KName n) :: TColon :: TArr :: sepBy (map jtoks (map jpair (map (micro t0) es))) ++ [TEndArr]).
  change (namedToks (n, map (micro t0) es)) with (TKey (KName n) :: TColon :: TArr :: sepBy (map jtoks (map jpair (map (micro t0) es))) ++ [TEndArr]).
  cbn [app]. do 3 f_equal. rewrite <- app_assoc. f_equal. cbn [app]. f_equal. destruct l as [|a l]; cbn [length map fullReport] in *.
  - replace (Nat.eqb (S count) size) with true by (symmetry; apply Nat.eqb_eq; lia). reflexivity.
  - replace (Nat.eqb (S count) size) with false by (symmetry; apply Nat.eqb_neq; lia). reflexivity.
Qed.

Lemma toBeWritten_eq : forall until l, filter (toBeWritten until) l = filter (fun e => negb (snd e =? fst e) && (until <? snd e)) l.
Proof. intros until l. apply filter_ext. intros e. unfold toBeWritten. now rewrite Z.gtb_ltb. Qed.

Lemma partialEntries_false : forall t0 until l acc, fold_left (partialEntry t0 until) l (false, acc) =
  (false, acc ++ concat (map (fun e => TComma :: entryTokens t0 e) (filter (toBeWritten until) l))).
Proof.
  intros t0 until. induction l as [|e l IH]; intros acc; cbn [fold_left filter].
  - cbn. now rewrite app_nil_r.
  - unfold partialEntry at 2. destruct (toBeWritten until e); [|apply IH]. cbn [fst snd]. rewrite IH. cbn [map concat]. rewrite <- !app_assoc. reflexivity.
Qed.
Lemma partialEntries_true : forall t0 until l acc, fold_left (partialEntry t0 until) l (true, acc) =
  match filter (toBeWritten until) l with [] => (true, acc) | k => (false, acc ++ sepBy (map (entryTokens t0) k)) end.
Proof.
  intros t0 until. induction l as [|e l IH]; intros acc; cbn [fold_left filter]; auto.
  unfold partialEntry at 2. destruct (toBeWritten until e); [|apply IH]. cbn [fst snd app]. rewrite partialEntries_false. f_equal.
  cbn [map]. rewrite sepBy_cons, <- app_assoc, map_map. reflexivity.
Qed.

Lemma partialNames : forall t0 until l (any : bool) acc, fold_left (partialName t0 until) l (any, acc) =
  match newReport t0 until l with
  | [] => (any, acc)
  | k => (false, acc ++ (if any then sepBy (map namedToks k) else concat (map (cons TComma) (map namedToks k))))
  end.
Proof.
  intros t0 until. induction l as [|[n es] l IH]; intros any acc; cbn [fold_left]; [reflexivity|].
  unfold partialName at 2. cbn [fst snd]. rewrite partialEntries_true. unfold newReport in *. cbn [map filter fst snd].
  rewrite <- toBeWritten_eq. destruct (filter (toBeWritten until) es) as [|e k] eqn:E; cbn [map fst snd filter]; [apply IH|].
  rewrite IH.
  assert (N : (if any then [] else [TComma]) ++ namedToks (n, micro t0 e :: map (micro t0) k) =
    (((if any then [] else [TComma]) ++ [TKey (KName n); TColon; TArr]) ++ sepBy (entryTokens t0 e :: map (entryTokens t0) k)) ++ [TEndArr]).
  { unfold namedToks. cbn [fst snd jtoks]. rewrite <- !app_assoc. cbn [app]. do 4 f_equal.
    cbn [map]. rewrite !map_map. reflexivity. }
  rewrite <- N.
  destruct (filter _ (map _ l)) as [|x r]; cbn [map concat].
  - destruct any; cbn [app sepBy]; rewrite ?app_nil_r; reflexivity.
  - f_equal. rewrite <- app_assoc. f_equal. destruct any.
    + rewrite sepBy_cons. reflexivity.
    + cbn [app map concat]. reflexivity.
Qed.
Lemma partialTokens_sep : forall t0 until l, partialTokens t0 until l = sepBy (map namedToks (newReport t0 until l)).
Proof. intros t0 until l. unfold partialTokens. rewrite partialNames. destruct (newReport t0 until l); reflexivity. Qed.

Lemma frame_json : forall rank size attrs report,
  frame rank size attrs (sepBy (map namedToks report)) =
  (if rank =? 0 then [TObj] else []) ++ (TKey (fst (rankJson rank attrs report)) :: TColon :: jtoks (snd (rankJson rank attrs report))) ++
  (if rank =? size - 1 then [TEndObj] else [TComma]).
Proof.
  intros rank size attrs report. unfold frame. f_equal. rewrite attrTokens_sep by lia. cbn [rankJson fst snd jtoks map sepBy].
  rewrite !map_map. cbn [app]. rewrite <- ?app_assoc. cbn [app]. rewrite <- ?app_assoc. cbn [app].
  reflexivity.
Qed.

Lemma ranks_concat : forall (f : Z -> Z -> SState -> list STok) (g : Z -> SState -> SKey * json) size,
  (forall r s, f r size s = (if r =? 0 then [TObj] else []) ++ (TKey (fst (g r s)) :: TColon :: jtoks (snd (g r s))) ++ (if r =? size - 1 then [TEndObj] else [TComma])) ->
  forall l r, l <> [] -> 0 < r -> r + Z.of_nat (length l) = size ->
  concat (mapRanks (fun r s => f r size s) r l) = sepBy (map (fun p => TKey (fst p) :: TColon :: jtoks (snd p)) (mapRanks g r l)) ++ [TEndObj].
Proof.
  intros f g size H. induction l as [|s l IH]; intros r NE Hr Hs; [congruence|]. cbn [mapRanks concat map]. rewrite H.
  replace (r =? 0) with false by (symmetry; apply Z.eqb_neq; lia). cbn [app length] in *. destruct l as [|s2 l].
  - cbn [mapRanks concat map sepBy length] in *. replace (r =? size - 1) with true by (symmetry; apply Z.eqb_eq; lia). rewrite !app_nil_r. reflexivity.
  - rewrite IH by (try discriminate; lia). replace (r =? size - 1) with false by (symmetry; apply Z.eqb_neq; cbn [length] in Hs; lia).
    cbn [mapRanks map sepBy]. repeat (cbn [app]; rewrite <- ?app_assoc). reflexivity.
Qed.
Lemma file_json : forall (f : Z -> Z -> SState -> list STok) (g : Z -> SState -> SKey * json) l, l <> [] ->
  (forall r s, f r (Z.of_nat (length l)) s = (if r =? 0 then [TObj] else []) ++ (TKey (fst (g r s)) :: TColon :: jtoks (snd (g r s))) ++ (if r =? Z.of_nat (length l) - 1 then [TEndObj] else [TComma])) ->
  concat (mapRanks (fun r s => f r (Z.of_nat (length l)) s) 0 l) = jtoks (JObj (mapRanks g 0 l)).
Proof.
  intros f g l NE H. destruct l as [|s l]; [congruence|]. cbn [mapRanks concat]. rewrite H. change (0 =? 0) with true. cbn [app jtoks mapRanks map].
  f_equal. destruct l as [|s2 l].
  - cbn [length]. change (0 =? Z.of_nat 1 - 1) with true. cbn [mapRanks concat map sepBy]. rewrite !app_nil_r. reflexivity.
  - replace (0 =? Z.of_nat (length (s :: s2 :: l)) - 1) with false by (symmetry; apply Z.eqb_neq; cbn [length]; lia).
    rewrite (ranks_concat f g (Z.of_nat (length (s :: s2 :: l))) H) by (try discriminate; cbn [length]; lia).
    cbn [mapRanks map sepBy]. repeat (cbn [app]; rewrite <- ?app_assoc). reflexivity.
Qed.

(** The file of all processes is one JSON object with one member per rank, which holds the attributes and all events. *)
Theorem C110_final_file : forall sts, sts <> [] ->
  concat (mapRanks (fun r s => writePart r (Z.of_nat (length sts)) s) 0 sts) =
  jtoks (JObj (mapRanks (fun r s => rankJson r (sAttrs s) (fullReport (sInit s) (sEvents s))) 0 sts)).
Proof.
  intros sts NE. apply (file_json writePart (fun r s => rankJson r (sAttrs s) (fullReport (sInit s) (sEvents s)))); auto. intros r s.
  unfold writePart. rewrite eventsTokens_sep by lia. apply frame_json.
Qed.
(** Likewise for a partial write, with the events that ended after the last one. *)
Theorem C110_partial_file : forall sts, sts <> [] ->
  concat (mapRanks (fun r s => writePartialPart r (Z.of_nat (length sts)) s) 0 sts) =
  jtoks (JObj (mapRanks (fun r s => rankJson r (sAttrs s) (newReport (sInit s) (sUntil s) (sEvents s))) 0 sts)).
Proof.
  intros sts NE. apply (file_json writePartialPart (fun r s => rankJson r (sAttrs s) (newReport (sInit s) (sUntil s) (sEvents s)))); auto. intros r s.
  unfold writePartialPart. rewrite partialTokens_sep. apply frame_json.
Qed.

(** ** The collection on the root *)
Lemma gather_parts : forall {A} (parts : list (list A)) (done rest : list A), length rest = length (concat parts) ->
  fold_left (fun buf dp => placeAt buf (fst dp) (snd dp))
    (combine (exclusiveScan (Z.of_nat (length done)) (map (fun p => Z.of_nat (length p)) parts)) parts) (done ++ rest) = done ++ concat parts.
Proof.
  intros A. induction parts as [|p parts IH]; intros done rest H; cbn [map exclusiveScan combine fold_left concat] in *.
  - destruct rest; [reflexivity|discriminate].
  - rewrite app_length in H. cbn [fst snd]. unfold placeAt. rewrite Nat2Z.id. rewrite firstn_app, firstn_all, Nat.sub_diag, firstn_O, app_nil_r.
    rewrite skipn_app, skipn_all2, app_nil_l by lia. replace (length done + length p - length done)%nat with (length p) by lia.
    specialize (IH (done ++ p) (skipn (length p) rest)). rewrite app_length, Nat2Z.inj_add in IH. rewrite <- app_assoc in IH.
    unfold placeAt in IH. rewrite IH by (rewrite skipn_length; lia). now rewrite <- app_assoc.
Qed.
Lemma counts_total : forall {A} (parts : list (list A)) a, fold_left Z.add (map (fun p => Z.of_nat (length p)) parts) a = a + Z.of_nat (length (concat parts)).
Proof. intros A. induction parts as [|p parts IH]; intros a; cbn [map fold_left concat length]; [lia|]. rewrite IH, app_length. lia. Qed.

(** The root writes the parts of all processes one behind the other, if and only if they have less than 2^31 bytes together. *)
Theorem C110_concatenation : forall A (blank : A) parts,
  writeConcatenated blank parts = if Z.of_nat (length (concat parts)) <? 2 ^ 31 then Some (concat parts) else None.
Proof.
  intros A blank parts. unfold writeConcatenated. rewrite counts_total, Z.add_0_l.
  destruct (Z.of_nat (length (concat parts)) <? 2 ^ 31) eqn:E; auto. apply Z.ltb_lt in E. cbn [andb].
  assert (X : forallb (fun c => c <? 2 ^ 31) (map (fun p : list A => Z.of_nat (length p)) parts) = true).
  { apply forallb_forall. intros c Hc. apply in_map_iff in Hc. destruct Hc as (p & <- & Hp). apply Z.ltb_lt.
    apply in_split in Hp. destruct Hp as (l1 & l2 & ->). rewrite concat_app, app_length in E. cbn [concat] in E. rewrite app_length in E. lia. }
  rewrite X. f_equal. rewrite Nat2Z.id. exact (gather_parts parts [] (repeat blank (length (concat parts))) (repeat_length _ _)).
Qed.

(** ** Which events are reported *)
(** The intervals of a name in the history of a process: every stop ends the interval that began with the last start. *)
Definition intervalStep (n : string) (st : Z * list (Z * Z)) (o : Z * SOp) : Z * list (Z * Z) :=
  match snd o with
  | SStart m => if String.eqb n m then (fst o, snd st) else st
  | SStop m => if String.eqb n m then (fst st, snd st ++ [(fst st, fst o)]) else st
  | _ => st
  end.
Definition intervals (n : string) (ops : list (Z * SOp)) : list (Z * Z) := snd (fold_left (intervalStep n) ops (0, [])).

Fixpoint increasing (t : Z) (ops : list (Z * SOp)) : Prop := match ops with [] => True | o :: r => t < fst o /\ increasing (fst o) r end.
Fixpoint lastTime (t : Z) (ops : list (Z * SOp)) : Z := match ops with [] => t | o :: r => lastTime (fst o) r end.

(** The events of name [n] in a report. *)
Definition reportedAs (n : string) (report : list (string * list (Z * Z))) : list (Z * Z) := match lookupS n report with Some l => l | None => [] end.

Definition evsOf (n : string) (s : SState) : list (Z * Z) := match lookupS n (sEvents s) with Some l => l | None => [] end.
Definition finished (e : Z * Z) : bool := negb (snd e =? 0).

Record statsInv (n : string) (T : Z) (s : SState) (pend : Z) (F R : list (Z * Z)) : Prop := {
  inv_T : 0 < sInit s <= T;
  inv_until : sInit s <= sUntil s <= T;
  inv_fin : filter finished (evsOf n s) = F;
  inv_rng : Forall (fun e => 0 < fst e /\ fst e < snd e /\ snd e <= T) F;
  inv_sorted : StronglySorted (fun a b => snd a < snd b) F;
  inv_rep : R = filter (fun e => snd e <=? sUntil s) F;
  inv_last : evsOf n s = [] \/ exists l e, evsOf n s = l ++ [(pend, e)];
  inv_pend : evsOf n s <> [] -> 0 < pend <= T;
  inv_names : NoDup (map fst (sEvents s)) }.

Lemma lookup_update : forall {A} n m (x : A) l, lookupS n (updateS m x l) = if String.eqb n m then Some x else lookupS n l.
Proof.
  intros A n m x. induction l as [|[k y] l IH]; cbn [updateS lookupS].
  - reflexivity.
  - destruct (String.eqb_spec m k) as [->|N]; cbn [lookupS].
    + destruct (String.eqb n k); auto.
    + rewrite IH. destruct (String.eqb_spec n k) as [->|]; auto. destruct (String.eqb_spec k m); [congruence|auto].
Qed.
Lemma update_names : forall {A} m (x : A) l, NoDup (map fst l) -> NoDup (map fst (updateS m x l)).
Proof.
  intros A m x. induction l as [|[k y] l IH]; intros ND; cbn [updateS map fst] in *.
  - repeat constructor. intros [].
  - inv ND. destruct (String.eqb_spec m k) as [->|N]; cbn [map fst]; constructor; auto.
    intros X. apply H1. clear -X N. induction l as [|[j z] l IHl]; cbn [updateS map fst] in *.
    + destruct X as [X|[]]. congruence.
    + destruct (String.eqb_spec m j); cbn [map fst] in X; cbn [In] in *; destruct X as [X|X]; auto.
Qed.

Lemma filter_all : forall {A} (f : A -> bool) l, (forall x, In x l -> f x = true) -> filter f l = l.
Proof. intros A f. induction l as [|x l IH]; intros H; cbn [filter]; auto. rewrite (H x) by now left. f_equal. apply IH. intros y Hy. apply H. now right. Qed.
Lemma sorted_split : forall u F, StronglySorted (fun a b : Z * Z => snd a < snd b) F ->
  filter (fun e => snd e <=? u) F ++ filter (fun e => u <? snd e) F = F.
Proof.
  intros u F S. induction S as [|a F S IH HF]; cbn [filter]; auto. destruct (Z.leb_spec (snd a) u) as [L|L].
  - replace (u <? snd a) with false by (symmetry; apply Z.ltb_ge; lia). cbn [app]. now rewrite IH.
  - replace (u <? snd a) with true by (symmetry; apply Z.ltb_lt; lia).
    assert (N : filter (fun e : Z * Z => snd e <=? u) F = []).
    { rewrite Forall_forall in HF. clear -HF L. induction F as [|b F IH]; cbn [filter]; auto.
      replace (snd b <=? u) with false by (symmetry; apply Z.leb_gt; specialize (HF b (or_introl eq_refl)); lia). apply IH. intros c Hc. apply HF. now right. }
    rewrite N in *. cbn [app] in *. now rewrite IH.
Qed.
Lemma sorted_snoc : forall (F : list (Z * Z)) e, StronglySorted (fun a b => snd a < snd b) F -> Forall (fun a => snd a < snd e) F ->
  StronglySorted (fun a b => snd a < snd b) (F ++ [e]).
Proof.
  intros F e S H. induction S as [|a F S IH HF]; cbn [app]; [repeat constructor|]. inv H. constructor; auto. apply Forall_app. split; auto.
Qed.

Lemma reported_new : forall n t0 until ev, NoDup (map fst ev) ->
  reportedAs n (newReport t0 until ev) = map (micro t0) (filter (fun e => negb (snd e =? fst e) && (until <? snd e)) (match lookupS n ev with Some l => l | None => [] end)).
Proof.
  intros n t0 until. unfold reportedAs, newReport. induction ev as [|[m es] ev IH]; intros ND; cbn [map filter lookupS fst snd] in *; auto. inv ND.
  specialize (IH H2). destruct (map (micro t0) (filter _ es)) as [|x l] eqn:E; cbn [lookupS].
  - rewrite IH. destruct (String.eqb_spec n m) as [->|]; auto. rewrite E.
    assert (X : lookupS m ev = None).
    { clear -H1. induction ev as [|[k y] ev IHe]; cbn [lookupS map fst] in *; auto. destruct (String.eqb_spec m k) as [->|]; [exfalso; apply H1; now left|].
      apply IHe. intros Y. apply H1. now right. }
    rewrite X. reflexivity.
  - destruct (String.eqb_spec n m) as [->|]; auto.
Qed.

Lemma setLastEnd_snoc : forall t l b e, setLastEnd t (l ++ [(b, e)]) = l ++ [(b, t)].
Proof. intros t l b e. unfold setLastEnd. rewrite rev_app_distr. cbn [rev app]. now rewrite rev_involutive. Qed.

Lemma stats_step_inv : forall n T t o s s' f pend F R, statsInv n T s pend F R -> T < t -> statsStep true true (t, o) s = Some (s', f) ->
  let r := intervalStep n (pend, F) (t, o) in
  statsInv n t s' (fst r) (snd r) (R ++ flat_map (fun x => filter (fun e => negb (snd e =? fst e) && (sUntil (snd x) <? snd e)) (evsOf n (snd x))) f) /\
  sInit s' = sInit s /\ Forall (fun x => sInit (snd x) = sInit s /\ NoDup (map fst (sEvents (snd x)))) f.
Proof.
  intros n T t o s s' f pend F R I HT E r. destruct I as [I1 I2 I3 I4 I5 I6 I7 I8 I9].
  assert (W : forall F, Forall (fun e : Z * Z => 0 < fst e /\ fst e < snd e /\ snd e <= T) F -> Forall (fun e : Z * Z => 0 < fst e /\ fst e < snd e /\ snd e <= t) F).
  { intros G HG. eapply Forall_impl; [|exact HG]. cbn. intros e. lia. }
  destruct o as [m|m|m v|]; unfold statsStep, intervalStep in *; cbn [fst snd] in *; subst r; cbn [fst snd].
  - injection E as <- <-. rewrite app_nil_r. split; [|split; [reflexivity|constructor]].
    set (l := match lookupS m (sEvents s) with Some l => l ++ [(t, 0)] | None => [(t, 0)] end).
    assert (EL : evsOf n (startEvent t m s) = if String.eqb n m then evsOf n s ++ [(t, 0)] else evsOf n s).
    { unfold evsOf, startEvent, withEvents. cbn [sEvents]. rewrite lookup_update. destruct (String.eqb_spec n m) as [->|]; auto.
      destruct (lookupS m (sEvents s)); reflexivity. }
    destruct (String.eqb_spec n m) as [->|N]; cbn [fst snd]; (constructor; rewrite ?EL; cbn [startEvent withEvents sInit sUntil sEvents]; auto; try lia).
    + rewrite filter_app, I3. cbn. apply app_nil_r.
    + right. eauto.
    + now apply update_names.
    + now apply update_names.
  - unfold stopEvent in E. destruct (lookupS m (sEvents s)) as [l|] eqn:EM; [|discriminate]. destruct (rev l) as [|[b e] q] eqn:ER; [discriminate|].
    cbn [andb] in E. destruct (Z.eqb_spec e 0) as [->|]; cbn [negb] in E; [|discriminate]. injection E as <- <-. rewrite app_nil_r.
    split; [|split; [reflexivity|constructor]].
    assert (ELL : l = rev q ++ [(b, 0)]) by (rewrite <- (rev_involutive l), ER; reflexivity).
    assert (EL : evsOf n (withEvents s (updateS m (setLastEnd t l) (sEvents s))) = if String.eqb n m then rev q ++ [(b, t)] else evsOf n s).
    { unfold evsOf, withEvents. cbn [sEvents]. rewrite lookup_update. destruct (String.eqb n m); auto. now rewrite ELL, setLastEnd_snoc. }
    destruct (String.eqb_spec n m) as [->|N]; cbn [fst snd].
    + assert (EO : evsOf m s = rev q ++ [(b, 0)]) by (unfold evsOf; now rewrite EM).
      assert (EB : b = pend).
      { destruct I7 as [I7|(l' & e' & I7)]; rewrite EO in I7; [destruct (rev q); discriminate|]. apply app_inj_tail in I7. destruct I7 as [_ I7]. now injection I7. }
      subst b. rewrite EO, filter_app in I3. cbn [filter finished snd] in I3. change (finished (pend, 0)) with false in I3. cbn [app] in I3. rewrite app_nil_r in I3.
      assert (HP : 0 < pend <= T) by (apply I8; rewrite EO; destruct (rev q); discriminate).
      constructor; rewrite ?EL; cbn [withEvents sInit sUntil sEvents]; auto; try lia.
      * rewrite filter_app, I3. cbn [filter]. unfold finished. cbn [snd]. destruct (Z.eqb_spec t 0); [lia|]. reflexivity.
      * apply Forall_app. split; [now apply W|]. constructor; [cbn; lia|constructor].
      * apply sorted_snoc; auto. eapply Forall_impl; [|exact I4]. cbn. intros a. lia.
      * rewrite filter_app. cbn [filter snd]. destruct (Z.leb_spec t (sUntil s)); [lia|]. now rewrite app_nil_r.
      * right. eauto.
      * now apply update_names.
    + constructor; rewrite ?EL; cbn [withEvents sInit sUntil sEvents]; auto; try lia.
      now apply update_names.
  - injection E as <- <-. rewrite app_nil_r. split; [|split; [reflexivity|constructor]].
    constructor; cbn [setAttribute sInit sUntil sEvents]; auto; try lia.
  - injection E as <- <-. split; [|split; [reflexivity|repeat constructor; auto]].
    constructor; cbn [afterPartial sInit sUntil sEvents]; auto; try lia.
    cbn [flat_map snd]. rewrite app_nil_r.
      assert (K : filter (fun e : Z * Z => negb (snd e =? fst e) && (sUntil s <? snd e)) (evsOf n s) = filter (fun e => sUntil s <? snd e) F).
      { rewrite <- I3. clear -I1 I2 I3 I4. assert (H : forall e, In e (evsOf n s) -> finished e = true -> snd e <> fst e).
        { intros e He Hf. assert (In e F) by (rewrite <- I3; apply filter_In; auto). rewrite Forall_forall in I4. specialize (I4 e H). lia. }
        revert H. generalize (evsOf n s). clear -I1 I2. induction l as [|e l IH]; intros H; cbn [filter]; auto.
        rewrite IH by (intros x Hx; apply H; now right). specialize (H e (or_introl eq_refl)). unfold finished in *.
        destruct (Z.eqb_spec (snd e) 0) as [E0|N0]; cbn [negb filter].
        - destruct (Z.ltb_spec (sUntil s) (snd e)); [lia|]. now rewrite andb_false_r.
        - specialize (H eq_refl). destruct (Z.eqb_spec (snd e) (fst e)); [congruence|]. reflexivity. }
      rewrite K, I6, sorted_split by auto. symmetry. apply filter_all. intros x Hx. rewrite Forall_forall in I4. specialize (I4 x Hx). apply Z.leb_le. lia.
Qed.

Lemma stats_run_inv : forall n ops T s s' fs pend F R, statsInv n T s pend F R -> increasing T ops -> statsRun true true ops s = Some (s', fs) ->
  let r := fold_left (intervalStep n) ops (pend, F) in
  statsInv n (lastTime T ops) s' (fst r) (snd r) (R ++ flat_map (fun x => filter (fun e => negb (snd e =? fst e) && (sUntil (snd x) <? snd e)) (evsOf n (snd x))) fs) /\
  Forall (fun x => sInit (snd x) = sInit s /\ NoDup (map fst (sEvents (snd x)))) fs.
Proof.
  intros n. induction ops as [|[t o] ops IH]; intros T s s' fs pend F R I HI E r; cbn [statsRun] in E.
  - injection E as <- <-. subst r. cbn [fold_left fst snd lastTime flat_map]. rewrite app_nil_r. split; auto.
  - destruct (statsStep true true (t, o) s) as [[s1 f1]|] eqn:E1; [|discriminate]. destruct (statsRun true true ops s1) as [[s2 f2]|] eqn:E2; [|discriminate].
    injection E as <- <-. destruct HI as [H1 H2]. cbn [fst] in *.
    destruct (stats_step_inv n T t o s s1 f1 pend F R I H1 E1) as (J1 & J2 & J3). cbv zeta in J1.
    destruct (IH t s1 s2 f2 _ _ _ J1 H2 E2) as (K1 & K2). subst r. cbn [fold_left lastTime fst]. cbv zeta in K1.
    rewrite <- surjective_pairing in K1. rewrite flat_map_app, app_assoc. split; [exact K1|]. apply Forall_app. split; auto.
    eapply Forall_impl; [|exact K2]. cbn. intros x [A B]. split; auto. congruence.
Qed.

(** Every event is reported exactly once: with a clock that ticks between any two operations, the partial writes of a process
    together contain exactly the intervals of each name that were ended before the last write, in order and each once,
    whatever the order in which the maps are iterated. *)
Theorem C110_each_event_once : forall t0 ops t s fs n (orders : list (list (string * list (Z * Z)))), 0 < t0 -> increasing t0 (ops ++ [(t, SPartial)]) ->
  statsRun true true (ops ++ [(t, SPartial)]) (initStats t0) = Some (s, fs) ->
  Forall2 (fun f ev => Permutation (sEvents (snd f)) ev) fs orders ->
  concat (map (fun fe => reportedAs n (newReport (sInit (snd (fst fe))) (sUntil (snd (fst fe))) (snd fe))) (combine fs orders)) = map (micro t0) (intervals n ops).
Proof.
  intros t0 ops t s fs n orders H0 HI E HO.
  assert (I : statsInv n t0 (initStats t0) 0 [] []).
  { constructor; unfold evsOf; cbn [initStats sInit sUntil sEvents lookupS filter map]; try solve [auto | lia | congruence | constructor]. }
  destruct (stats_run_inv n _ t0 _ _ _ _ _ _ I HI E) as (K & K2). cbv zeta in K. cbn [app] in K. cbn [initStats sInit] in K2.
  rewrite fold_left_app in K. cbn [fold_left intervalStep snd] in K.
  assert (LT : lastTime t0 (ops ++ [(t, SPartial)]) = t) by (clear; revert t0; induction ops as [|o ops IH]; intros t0; cbn [app lastTime]; auto).
  assert (EU : sUntil s = t).
  { clear -E. revert E. generalize (initStats t0). revert s fs. induction ops as [|o ops IH]; intros s fs s0 E; cbn [app statsRun] in E.
    - cbn [statsStep snd fst] in E. injection E as <- _. reflexivity.
    - destruct (statsStep true true o s0) as [[s1 f1]|]; [|discriminate]. destruct (statsRun true true (ops ++ [(t, SPartial)]) s1) as [[s2 f2]|] eqn:E2; [|discriminate].
      injection E as <- <-. eapply IH; eauto. }
  destruct K as [_ _ _ K4 _ K6 _ _ _]. rewrite LT in K4. rewrite EU in K6.
  assert (EF : intervals n ops = snd (fold_left (intervalStep n) ops (0, []))) by reflexivity. rewrite EF.
  rewrite filter_all in K6 by (intros x Hx; rewrite Forall_forall in K4; specialize (K4 x Hx); apply Z.leb_le; lia). rewrite <- K6.
  clear -K2 HO. induction HO as [|f ev fs orders HP HO IH]; cbn [combine map concat flat_map]; auto. inv K2. destruct H1 as [A B]. cbn [fst snd].
  rewrite map_app, IH by auto. f_equal. rewrite A.
  assert (B' : NoDup (map fst ev)) by (eapply Permutation_NoDup; [apply Permutation_map; exact HP|auto]).
  rewrite reported_new by auto. unfold evsOf. do 2 f_equal.
  assert (X : forall a b : list (string * list (Z * Z)), Permutation a b -> NoDup (map fst a) -> lookupS n a = lookupS n b).
  { clear. intros a b P. induction P as [|[k y] a b P IH|[k y] [j z] a|a b c P1 IH1 P2 IH2]; intros ND; cbn [lookupS]; auto.
    - cbn [map fst] in ND. inv ND. now rewrite IH.
    - cbn [map fst] in ND. inv ND. destruct (String.eqb_spec n k) as [->|]; auto. destruct (String.eqb_spec k j) as [->|]; auto.
      exfalso. apply H1. now left.
    - rewrite IH1 by auto. apply IH2. eapply Permutation_NoDup; [apply Permutation_map; exact P1|auto]. }
  now rewrite (X _ _ HP B).
Qed.

(** The names of the files of the partial writes are numbered from 0 without gaps. *)
Theorem C110_file_numbers : forall timing debug t0 ops s fs, statsRun timing debug ops (initStats t0) = Some (s, fs) ->
  map fst fs = map Z.of_nat (seq 0 (length fs)).
Proof.
  intros timing debug t0 ops s fs.
  assert (G : forall ops s0 s fs, statsRun timing debug ops s0 = Some (s, fs) -> map fst fs = map (fun k => sWrites s0 + Z.of_nat k) (seq 0 (length fs))).
  { clear. induction ops as [|[t o] ops IH]; intros s0 s fs E; cbn [statsRun] in E; [injection E as _ <-; reflexivity|].
    destruct (statsStep timing debug (t, o) s0) as [[s1 f1]|] eqn:E1; [|discriminate]. destruct (statsRun timing debug ops s1) as [[s2 f2]|] eqn:E2; [|discriminate].
    injection E as <- <-. specialize (IH _ _ _ E2). unfold statsStep in E1. cbn [fst snd] in E1. destruct o as [m|m|m v|].
    - injection E1 as <- <-. exact IH.
    - destruct (stopEvent timing debug t m s0) as [s'|] eqn:ES; [|discriminate]. injection E1 as <- <-. cbn [app].
      assert (X : sWrites s' = sWrites s0); [|now rewrite <- X].
      unfold stopEvent in ES. destruct (lookupS m (sEvents s0)) as [l|]; [|discriminate]. destruct (rev l) as [|[b e] q]; [discriminate|].
      destruct (debug && negb (e =? 0)); [discriminate|]. injection ES as <-. reflexivity.
    - injection E1 as <- <-. exact IH.
    - injection E1 as <- <-. cbn [app map fst length seq]. cbn [afterPartial sWrites] in IH. rewrite IH. f_equal; [lia|].
      rewrite <- seq_shift, map_map. apply map_ext. intros k. lia. }
  intros E. rewrite (G _ _ _ _ E). cbn [initStats sWrites]. apply map_ext. intros k. lia.
Qed.

(** Without assertions, what an execution in which no assertion fails does is the same. *)
Theorem C110_release_same : forall timing ops s r, statsRun timing true ops s = Some r -> statsRun timing false ops s = Some r.
Proof.
  intros timing. induction ops as [|[t o] ops IH]; intros s r E; cbn [statsRun] in *; auto.
  assert (X : forall q, statsStep timing true (t, o) s = Some q -> statsStep timing false (t, o) s = Some q).
  { intros q. unfold statsStep. cbn [fst snd]. destruct o as [m|m|m v|]; auto. unfold stopEvent. destruct (lookupS m (sEvents s)) as [l|]; [|discriminate].
    destruct (rev l) as [|[b e] k]; [discriminate|]. cbn [andb]. destruct (negb (e =? 0)); [discriminate|auto]. }
  destruct (statsStep timing true (t, o) s) as [q|] eqn:E1; [|discriminate]. rewrite (X q eq_refl). destruct q as [s1 f1].
  destruct (statsRun timing true ops s1) as [[s2 f2]|] eqn:E2; [|discriminate]. now rewrite (IH _ _ E2).
Qed.

(** After an event was stopped its duration is the time between start and stop (in milliseconds, rounded down). *)
Theorem C110_duration_partial : forall debug n s t1 t2 s', 0 <= t1 <= t2 -> t2 - t1 < 2 ^ 64 ->
  stopEvent true debug t2 n (startEvent t1 n s) = Some s' -> getDuration n s' = Some ((t2 - t1) / 1000000).
Proof.
  intros debug n s t1 t2 s' HT HB E. unfold stopEvent, startEvent, withEvents in E. cbn [sEvents] in E. rewrite lookup_update, String.eqb_refl in E.
  set (l := match lookupS n (sEvents s) with Some l => l | None => [] end).
  replace (match lookupS n (sEvents s) with Some l => l ++ [(t1, 0)] | None => [(t1, 0)] end) with (l ++ [(t1, 0)]) in E by (unfold l; destruct (lookupS n (sEvents s)); reflexivity).
  rewrite rev_app_distr in E. cbn [rev app] in E. change (negb (0 =? 0)) with false in E. rewrite andb_false_r in E. injection E as <-.
  unfold getDuration. cbn [sEvents]. rewrite lookup_update, String.eqb_refl, setLastEnd_snoc, rev_app_distr. cbn [rev app]. f_equal.
  rewrite Z.quot_div_nonneg by lia. apply Z.mod_small. split; [apply Z.div_pos; lia|]. apply Z.div_lt_upper_bound; lia.
Qed.

(** Compiled without TIMING there is nothing left to ask for. *)
Theorem C110_duration_refuted :
  ~ (forall timing debug n s t1 t2 s', 0 <= t1 <= t2 -> t2 - t1 < 2 ^ 64 ->
       stopEvent timing debug t2 n (startEvent t1 n s) = Some s' -> getDuration n s' = Some ((t2 - t1) / 1000000)).
Proof.
  intros H. specialize (H false true "run"%string (initStats 1) 5000000 7000000 (initStats 1) ltac:(lia) ltac:(lia) eq_refl). discriminate.
Qed.

(** With a clock that may show the same time twice, an event that is stopped right after a partial write is never reported. *)
Fixpoint nondecreasing (t : Z) (ops : list (Z * SOp)) : Prop := match ops with [] => True | o :: r => t <= fst o /\ nondecreasing (fst o) r end.
Definition exTie : list (Z * SOp) := [(1000, SStart "run"); (5000, SPartial); (5000, SStop "run")].
Theorem C110_clock_refuted :
  ~ (forall t0 ops t s fs n, 0 < t0 -> nondecreasing t0 (ops ++ [(t, SPartial)]) ->
       statsRun true true (ops ++ [(t, SPartial)]) (initStats t0) = Some (s, fs) ->
       concat (map (fun f => reportedAs n (newReport (sInit (snd f)) (sUntil (snd f)) (sEvents (snd f)))) fs) = map (micro t0) (intervals n ops)).
Proof.
  intros H. assert (X := H 1 exTie 9000). destruct (statsRun true true (exTie ++ [(9000, SPartial)]) (initStats 1)) as [[s fs]|] eqn:E; [|vm_compute in E; discriminate].
  assert (C : concat (map (fun f => reportedAs "run"%string (newReport (sInit (snd f)) (sUntil (snd f)) (sEvents (snd f)))) fs) = []).
  { revert E. vm_compute. intros E. injection E as <- <-. reflexivity. }
  specialize (X s fs "run"%string ltac:(lia)). rewrite C in X.
  assert (Y : nondecreasing 1 (exTie ++ [(9000, SPartial)])) by (cbn; lia). specialize (X Y eq_refl). vm_compute in X. discriminate.
Qed.

(** Events of the same name must not be nested: the number of stops is not the number of events reported. *)
Definition stopsOf (n : string) (ops : list (Z * SOp)) : nat := length (filter (fun o => match snd o with SStop m => String.eqb n m | _ => false end) ops).
Definition exNested : list (Z * SOp) := [(1000, SStart "run"); (2000, SStart "run"); (3000, SStop "run"); (4000, SStop "run")].
Theorem C110_nested_refuted :
  statsRun true true exNested (initStats 1) = None /\
  ~ (forall t0 ops t s fs n, 0 < t0 -> increasing t0 (ops ++ [(t, SPartial)]) ->
       statsRun true false (ops ++ [(t, SPartial)]) (initStats t0) = Some (s, fs) ->
       length (concat (map (fun f => reportedAs n (newReport (sInit (snd f)) (sUntil (snd f)) (sEvents (snd f)))) fs)) = stopsOf n ops).
Proof.
  split; [reflexivity|]. intros H.
  assert (X := H 1 exNested 9000). destruct (statsRun true false (exNested ++ [(9000, SPartial)]) (initStats 1)) as [[s fs]|] eqn:E; [|vm_compute in E; discriminate].
  assert (C : length (concat (map (fun f => reportedAs "run"%string (newReport (sInit (snd f)) (sUntil (snd f)) (sEvents (snd f)))) fs)) = 1%nat).
  { revert E. vm_compute. intros E. injection E as <- <-. reflexivity. }
  specialize (X s fs "run"%string ltac:(lia)). rewrite C in X.
  assert (Y : increasing 1 (exNested ++ [(9000, SPartial)])) by (cbn; lia). specialize (X Y eq_refl). vm_compute in X. discriminate.
Qed.

(** Two writes; one event runs across the first of them. *)
Definition exStats : list (Z * SOp) :=
  [(1000, SAttr "group" "0"); (2000, SStart "run"); (5000, SStop "run"); (6000, SStart "combine"); (8000, SPartial); (9000, SStop "combine"); (10000, SStart "run");
   (14000, SStop "run")].
Example C110_ex_hyps : increasing 1000 ((tl exStats) ++ [(15000, SPartial)]) /\
  exists s fs, statsRun true true (tl exStats ++ [(15000, SPartial)]) (initStats 1000) = Some (s, fs) /\
    map (fun f => newReport (sInit (snd f)) (sUntil (snd f)) (sEvents (snd f))) fs =
      [[("run"%string, [(1, 4)])]; [("run"%string, [(9, 13)]); ("combine"%string, [(5, 8)])]].
Proof. split; [cbn; lia|]. do 2 eexists. split; reflexivity. Qed.
Example C110_ex_file : exists s fs, statsRun true true exStats (initStats 1000) = Some (s, fs) /\
  writeConcatenated TComma [writePart 0 2 s; writePart 1 2 s] =
  Some (jtoks (JObj [rankJson 0 [("group"%string, "0"%string)] [("run"%string, [(1, 4); (9, 13)]); ("combine"%string, [(5, 8)])];
                     rankJson 1 [("group"%string, "0"%string)] [("run"%string, [(1, 4); (9, 13)]); ("combine"%string, [(5, 8)])]])).
Proof. do 2 eexists. split; [reflexivity|]. vm_compute. reflexivity. Qed.

Print Assumptions C110_final_file.
Print Assumptions C110_partial_file.
Print Assumptions C110_concatenation.
Print Assumptions C110_each_event_once.
Print Assumptions C110_file_numbers.
Print Assumptions C110_release_same.
Print Assumptions C110_duration_partial.
Print Assumptions C110_duration_refuted.
Print Assumptions C110_clock_refuted.
Print Assumptions C110_nested_refuted.
Print Assumptions C110_ex_hyps.
Print Assumptions C110_ex_file.
