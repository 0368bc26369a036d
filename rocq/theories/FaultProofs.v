(** Proofs about the recomputation of coefficients after faults (FaultModel). *)
From Verif Require Import Base TensorModel TensorProofs LevelSetsModel LevelSetsProofs CombiSchemeModel CombiSchemeProofs DofProofs.
From Verif Require Import QcTools HierMassProofs InterpProofs CombiStepProofs FaultModel.
From Coq Require Import QArith Qcanon.
Open Scope Z_scope.
Ltac Zify.zify_post_hook ::= idtac.

(** * Dictionaries *)
Definition keys {A} (d : dict A) : list (list Z) := map fst d.
Definition wfDict {A} (n : nat) (d : dict A) : Prop :=
  StronglySorted lexlt (keys d) /\ Forall (fun k => length k = n) (keys d).

Lemma keys_dinsert : forall {A} k (v : A) d, keys (dinsert k v d) = setInsert k (keys d).
Proof.
  intros A k v. induction d as [|[k' v'] d IH]; auto. cbn [dinsert keys map setInsert fst].
  destruct (lexltb k k'); auto. destruct (lexltb k' k); auto. cbn [map fst]. f_equal. exact IH.
Qed.

Lemma keys_insertAll : forall {A B} (f : B -> list Z) (g : B -> A) l d,
  keys (fold_left (fun d x => dinsert (f x) (g x) d) l d) = fold_left (fun s v => setInsert v s) (map f l) (keys d).
Proof.
  intros A B f g. induction l as [|x l IH]; intros d; auto. cbn [fold_left map]. now rewrite IH, keys_dinsert.
Qed.

Lemma dfind_In : forall {A} k (v : A) d, dfind k d = Some v -> In (k, v) d.
Proof.
  intros A k v. induction d as [|[k' v'] d IH]; cbn [dfind]; [discriminate|].
  destruct (list_eq_dec Z.eq_dec k k') as [->|]; intros H; [inv H; now left|right; auto].
Qed.

Lemma In_dfind : forall {A} k (v : A) d, NoDup (keys d) -> In (k, v) d -> dfind k d = Some v.
Proof.
  intros A k v. induction d as [|[k' v'] d IH]; intros ND Hin; [contradiction|]. cbn [dfind]. inv ND.
  destruct Hin as [E|Hin].
  - inv E. destruct (list_eq_dec Z.eq_dec k k); [reflexivity|congruence].
  - destruct (list_eq_dec Z.eq_dec k k') as [->|]; auto. exfalso. apply H1. apply (in_map fst) in Hin. exact Hin.
Qed.

Lemma dfind_key : forall {A} k (d : dict A), In k (keys d) -> exists v, dfind k d = Some v.
Proof.
  intros A k. induction d as [|[k' v'] d IH]; [contradiction|]. intros H. cbn [dfind].
  destruct (list_eq_dec Z.eq_dec k k'); [eauto|]. apply IH. destruct H; [simpl in H; congruence|auto].
Qed.

Lemma dfind_none : forall {A} k (d : dict A), dfind k d = None <-> ~ In k (keys d).
Proof.
  intros A k d. split.
  - intros H Hin. apply dfind_key in Hin as [v Hv]. congruence.
  - intros H. destruct (dfind k d) eqn:E; auto. apply dfind_In in E. exfalso. apply H. now apply (in_map fst) in E.
Qed.

Lemma wf_NoDup : forall {A} n (d : dict A), wfDict n d -> NoDup (keys d).
Proof. intros A n d [H _]. now apply lexsorted_NoDup. Qed.

Lemma combine_keys : forall {A} (ks : list (list Z)) (vs : list A), length ks = length vs -> keys (combine ks vs) = ks.
Proof. induction ks; destruct vs; intros H; simpl in *; try discriminate; auto. f_equal. apply IHks. lia. Qed.

Lemma dfind_combine : forall {A} (ks : list (list Z)) (vs : list A) i dv, NoDup ks -> length ks = length vs -> (i < length ks)%nat ->
  dfind (nth i ks []) (combine ks vs) = Some (nth i vs dv).
Proof.
  intros A ks vs i dv ND L Hi. apply In_dfind; [now rewrite combine_keys|].
  rewrite <- combine_nth by auto. apply nth_In. rewrite combine_length. lia.
Qed.

(** An entry inserted last, after all smaller ones. *)
Lemma dinsert_last : forall {A} n k (v : A) d, length k = n -> wfDict n d -> Forall (fun k' => lexlt k' k) (keys d) ->
  dinsert k v d = d ++ [(k, v)].
Proof.
  intros A n k v d Lk. induction d as [|[k' v'] d IH]; intros [SS FL] F; auto. cbn [dinsert app].
  cbn [keys map fst] in *. inv SS. inv FL. inv F.
  assert (E1 : lexltb k k' = false).
  { destruct (lexltb k k') eqn:E; auto. apply lexltb_spec in E; [|lia]. exfalso. eapply lexlt_irrefl, lexlt_trans; eauto. }
  assert (E2 : lexltb k' k = true) by (apply lexltb_spec; [lia|auto]).
  rewrite E1, E2. f_equal. apply IH; auto. split; auto.
Qed.

Lemma insertAll_sorted : forall {A B} n (f : B -> list Z) (g : B -> A) l d,
  StronglySorted lexlt (keys d ++ map f l) -> Forall (fun k => length k = n) (keys d ++ map f l) ->
  fold_left (fun d x => dinsert (f x) (g x) d) l d = d ++ map (fun x => (f x, g x)) l.
Proof.
  intros A B n f g. induction l as [|x l IH]; intros d SS F; cbn [fold_left map]; [now rewrite app_nil_r|].
  assert (SP : forall (l1 l2 : list (list Z)), StronglySorted lexlt (l1 ++ l2) -> StronglySorted lexlt l1 /\ Forall (fun a => Forall (lexlt a) l2) l1).
  { induction l1; intros l2 H; [split; constructor|]. cbn [app] in H. inv H. apply IHl1 in H2 as [I1 I2].
    apply Forall_app in H3 as [J1 J2]. split; constructor; auto. }
  pose proof (SP _ _ SS) as [S1 S2]. pose proof F as F'. apply Forall_app in F as [F1 F2]. cbn [map] in F2. inv F2.
  rewrite (dinsert_last (length (f x))).
  - rewrite IH.
    + now rewrite <- app_assoc.
    + unfold keys in *. rewrite map_app, <- app_assoc. exact SS.
    + unfold keys in *. rewrite map_app, <- app_assoc. exact F'.
  - reflexivity.
  - split; auto.
  - rewrite Forall_forall in *. intros k Hk. specialize (S2 k Hk). cbn [map] in S2. now inv S2.
Qed.

(** * mindex enumerates the whole box *)
Lemma l1norm_sum : forall l a, fold_left (fun n x => n + Z.abs x) l a = a + zsum (map Z.abs l).
Proof. induction l; intros; cbn [fold_left map]; [rewrite zsum_nil; lia|]. rewrite IHl, zsum_cons. lia. Qed.

Lemma l1norm_pos : forall l, Forall (fun x => 1 <= x) l -> l1norm l = zsum l.
Proof.
  intros l H. unfold l1norm. rewrite l1norm_sum. induction H; auto. cbn [map]. rewrite !zsum_cons.
  rewrite Z.abs_eq by lia. lia.
Qed.

Definition odo (u : Z) (t : list Z) : Z := lin (map (fun _ => u) t) (map (fun x => x - 1) t).

Lemma bump_spec : forall u t, 1 <= u -> Forall (fun x => 1 <= x <= u) t ->
  match bump u t with
  | Some t' => length t' = length t /\ Forall (fun x => 1 <= x <= u) t' /\ odo u t' = odo u t + 1
  | None => odo u t + 1 = u ^ Z.of_nat (length t)
  end.
Proof.
  intros u t Hu F. induction F as [|x t Hx F IH]; cbn [bump]; [reflexivity|].
  destruct (Z.leb_spec (x + 1) u).
  - split; [reflexivity|]. split; [constructor; auto; lia|]. unfold odo. cbn [map lin]. lia.
  - assert (x = u) by lia. subst x. destruct (bump u t) as [t'|]; cbn [option_map].
    + destruct IH as (L & G & V). split; [simpl; lia|]. split; [constructor; auto; lia|].
      unfold odo in *. cbn [map lin].
      assert (E : map (fun _ : Z => u) t' = map (fun _ => u) t).
      { clear - L. revert t L. induction t'; destruct t; intros; simpl in *; try discriminate; auto. f_equal. apply IHt'. lia. }
      rewrite V. lia.
    + unfold odo in *. cbn [map lin length]. rewrite Nat2Z.inj_succ, Z.pow_succ_r by lia. rewrite <- IH. ring.
Qed.

Lemma odo_inj : forall u s t, length s = length t -> Forall (fun x => 1 <= x <= u) s -> Forall (fun x => 1 <= x <= u) t ->
  odo u s = odo u t -> s = t.
Proof.
  intros u s t L Fs Ft E. unfold odo in E.
  assert (EE : map (fun _ : Z => u) s = map (fun _ => u) t).
  { clear - L. revert t L. induction s; destruct t; intros; simpl in *; try discriminate; auto. f_equal. apply IHs. lia. }
  rewrite EE in E.
  assert (B : forall v, length v = length t -> Forall (fun x => 1 <= x <= u) v -> inBox (map (fun _ => u) t) (map (fun x => x - 1) v)).
  { clear. intros v L F. revert t L. induction F; destruct t; intros; simpl in *; try discriminate; constructor; auto; try lia.
    apply IHF. lia. }
  apply (f_equal (unlin (map (fun _ => u) t))) in E. rewrite !unlin_lin in E by auto.
  clear - E L. revert t E L. induction s; destruct t; intros; simpl in *; try discriminate; auto.
  inv E. f_equal; [lia|]. apply IHs; auto.
Qed.

Lemma Forall_rev' : forall (P : Z -> Prop) l, Forall P l -> Forall P (rev l).
Proof. intros P l H. apply Forall_forall. intros x Hx. apply in_rev in Hx. rewrite Forall_forall in H. auto. Qed.

Lemma odo_range : forall u t, Forall (fun x => 1 <= x <= u) t -> 0 <= odo u t < u ^ Z.of_nat (length t).
Proof.
  intros u t F. induction F as [|x t Hx F IH]; [unfold odo; simpl; lia|].
  unfold odo in *. cbn [map lin length]. rewrite Nat2Z.inj_succ, Z.pow_succ_r by lia. nia.
Qed.

Lemma mindexLoop_In : forall f u tot t v, 1 <= u -> Forall (fun x => 1 <= x <= u) t ->
  odo u (rev t) + Z.of_nat f = u ^ Z.of_nat (length t) ->
  (In v (mindexLoop f u tot t) <->
   length v = length t /\ Forall (fun x => 1 <= x <= u) v /\ odo u (rev t) <= odo u (rev v) /\ l1norm v <= tot).
Proof.
  induction f as [|f IH]; intros u tot t v Hu Ft Hf.
  - cbn [mindexLoop]. split; [contradiction|]. intros (L & F & O & _).
    pose proof (odo_range u (rev v) (Forall_rev' _ _ F)) as R. rewrite rev_length, L in R. lia.
  - cbn [mindexLoop]. rewrite in_app_iff.
    pose proof (bump_spec u (rev t) Hu (Forall_rev' _ _ Ft)) as BS. rewrite rev_length in BS.
    assert (HD : In v (if l1norm t <=? tot then [t] else []) <-> v = t /\ l1norm v <= tot).
    { destruct (Z.leb_spec (l1norm t) tot); simpl; intuition (subst; auto; lia). }
    rewrite HD. destruct (bump u (rev t)) as [t'|] eqn:EB.
    + destruct BS as (L & F & V). rewrite IH; auto.
      * rewrite rev_length, L, rev_involutive, V. split.
        -- intros [[-> Hn]|(A1 & A2 & A3 & A4)]; [repeat split; auto; lia|repeat split; auto; lia].
        -- intros (A1 & A2 & A3 & A4). destruct (Z.eq_dec (odo u (rev v)) (odo u (rev t))) as [E|NE].
           ++ left. split; auto. apply odo_inj in E; auto using Forall_rev'; [|now rewrite !rev_length].
              rewrite <- (rev_involutive v), E. apply rev_involutive.
           ++ right. repeat split; auto. lia.
      * now apply Forall_rev'.
      * rewrite rev_involutive, rev_length, L, V. lia.
    + split.
      * intros [[-> Hn]|[]]. repeat split; auto; lia.
      * intros (A1 & A2 & A3 & A4). left. split; auto.
        pose proof (odo_range u (rev v) (Forall_rev' _ _ A2)) as R. rewrite rev_length, A1 in R.
        assert (E : odo u (rev v) = odo u (rev t)) by lia.
        apply odo_inj in E; auto using Forall_rev'; [|now rewrite !rev_length].
        rewrite <- (rev_involutive v), E. apply rev_involutive.
Qed.

Lemma odo_ones : forall u n, odo u (rev (repeat 1 n)) = 0.
Proof.
  intros u n. assert (R : rev (repeat 1 n) = repeat 1 n).
  { induction n; simpl; auto. rewrite IHn. clear. induction n; simpl; auto. now rewrite IHn. }
  rewrite R. unfold odo. clear. induction n; simpl; auto. rewrite IHn. ring.
Qed.

Lemma maxElement_ge : forall l x, In x l -> x <= maxElement l.
Proof.
  intros [|a l] x H; [contradiction|]. unfold maxElement.
  assert (G : forall l a, a <= fold_left Z.max l a /\ forall y, In y l -> y <= fold_left Z.max l a).
  { clear. induction l; intros b; cbn [fold_left]; [split; [lia|contradiction]|].
    destruct (IHl (Z.max b a)) as [I1 I2]. split; [lia|]. intros y [->|Hy]; [lia|auto]. }
  destruct (G l a) as [G1 G2]. destruct H as [->|H]; auto.
Qed.

Lemma mindex_In : forall lmax dim v, lmax <> [] -> Forall (fun x => 1 <= x) lmax ->
  (In v (mindex dim lmax) <->
   length v = dim /\ Forall (fun x => 1 <= x <= maxElement lmax) v /\ l1norm v <= zsum lmax).
Proof.
  intros lmax dim v Hne P. unfold mindex. rewrite levelSum_zsum.
  assert (Hu : 1 <= maxElement lmax).
  { destruct lmax as [|x l]; [congruence|]. inv P. pose proof (maxElement_ge (x :: l) x (or_introl eq_refl)). lia. }
  set (u := maxElement lmax) in *. clearbody u. rewrite Z.max_r by lia.
  assert (PP : 0 < u ^ Z.of_nat dim) by (apply Z.pow_pos_nonneg; lia).
  rewrite mindexLoop_In; auto.
  - rewrite repeat_length, odo_ones. split.
    + intros (A & B & _ & C). auto.
    + intros (A & B & C). repeat split; auto. apply odo_range. now apply Forall_rev'.
  - apply Forall_forall. intros x Hx. apply repeat_spec in Hx. lia.
  - rewrite odo_ones, repeat_length. rewrite Z2Nat.id by lia. lia.
Qed.

(** * The down set *)
Lemma testGreater_spec : forall b a, length a = length b -> (testGreater b a = true <-> Forall2 Z.le a b).
Proof.
  unfold testGreater. induction b as [|y b IH]; destruct a as [|x a]; intros L; simpl in *; try discriminate.
  - split; [constructor|auto].
  - rewrite andb_true_iff, IH by lia. split.
    + intros [H1 H2]. constructor; auto. lia.
    + intros H. inv H. split; auto. lia.
Qed.

(** The levels of the reduced problem between the minimum level and a level with positive coefficient. *)
Definition inDownset (lmin : list Z) (given : dict Qc) (l : list Z) : Prop :=
  Forall2 Z.le lmin l /\ exists a c, In (a, c) given /\ (0 < c)%Qc /\ Forall2 Z.le l a.

Definition wfGiven (lmin lmax : list Z) (given : dict Qc) : Prop :=
  wfDict (length lmin) given /\ Forall2 Z.le lmin lmax /\ Forall (fun x => 1 <= x) lmin /\ lmin <> [] /\
  Forall (fun k => Forall2 Z.le lmin k /\ Forall2 Z.le k lmax) (keys given).

Lemma Forall2_le_trans : forall a b c, Forall2 Z.le a b -> Forall2 Z.le b c -> Forall2 Z.le a c.
Proof.
  intros a b c H. revert c. induction H; intros c Hc; inv Hc; constructor; auto. lia.
Qed.

Lemma Forall2_le_sum : forall a b, Forall2 Z.le a b -> zsum a <= zsum b.
Proof. induction 1; rewrite ?zsum_nil, ?zsum_cons; lia. Qed.

Lemma qltb_lt : forall a b, qltb a b = true <-> (a < b)%Qc.
Proof. intros. unfold qltb. rewrite Qclt_alt. destruct (a ?= b)%Qc; intuition congruence. Qed.

Lemma entire_keys : forall lmin lmax given, wfGiven lmin lmax given ->
  let K := keys (entireDownset lmin lmax given) in
  StronglySorted lexlt K /\ Forall (fun k => length k = length lmin) K /\ forall l, In l K <-> inDownset lmin given l.
Proof.
  intros lmin lmax given (WD & F & P & Hne & Bk).
  set (all := mindex (length lmin) lmax).
  set (feas := flat_map (fun a : list Z * Qc => filter (fun l => testGreater (fst a) l && testGreater l lmin) all)
                 (filter (fun p => qltb 0%Qc (snd p)) given)).
  assert (Pmax : Forall (fun x => 1 <= x) lmax).
  { clear - F P. induction F; constructor; inv P; auto. lia. }
  assert (Nmax : lmax <> []) by (intros ->; inv F; congruence).
  assert (FI : forall l, In l feas <-> inDownset lmin given l).
  { intros l. unfold feas. rewrite in_flat_map. split.
    - intros [[a c] [H1 H2]]. apply filter_In in H1 as [H1 Hc]. apply filter_In in H2 as [H2 H3].
      apply andb_true_iff in H3 as [H3 H4]. cbn [fst snd] in *. unfold all in H2.
      apply mindex_In in H2 as (L & _ & _); auto.
      destruct WD as [_ WL]. rewrite Forall_forall in WL.
      assert (La : length a = length lmin) by (apply WL; apply (in_map fst) in H1; exact H1).
      apply testGreater_spec in H3; [|lia]. apply testGreater_spec in H4; [|lia].
      split; auto. exists a, c. split; auto. split; auto. now apply qltb_lt.
    - intros [H1 (a & c & H2 & H3 & H4)]. exists (a, c). split; [apply filter_In; split; auto; now apply qltb_lt|].
      assert (La := Forall2_length _ _ _ _ _ H4). assert (Ll := Forall2_length _ _ _ _ _ H1). apply filter_In. split.
      + unfold all. apply mindex_In; auto. split; [auto|].
        assert (Ha : Forall2 Z.le a lmax).
        { rewrite Forall_forall in Bk. apply Bk. apply (in_map fst) in H2. exact H2. }
        pose proof (Forall2_le_trans _ _ _ H4 Ha) as Hm.
        assert (Pl : Forall (fun x => 1 <= x) l).
        { clear - H1 P. revert l H1. induction P; intros m Hm; inv Hm; constructor; auto. lia. }
        split.
        * apply Forall_forall. intros x Hx. rewrite Forall_forall in Pl. split; [auto|].
          apply (In_nth _ _ 0) in Hx as (i & Hi & <-).
          pose proof (proj1 (Forall2_nth_iff _ _ _ 0 0 _ _) Hm) as [Lm Nm]. specialize (Nm i Hi).
          pose proof (maxElement_ge lmax (nth i lmax 0)) as G. cbv beta in Nm.
          specialize (G ltac:(apply nth_In; lia)). lia.
        * rewrite l1norm_pos by auto. now apply Forall2_le_sum.
      + cbn [fst]. apply andb_true_iff. split; apply testGreater_spec; auto. }
  cbv zeta. unfold entireDownset. fold all. fold feas.
  rewrite (keys_insertAll (fun l => l) (fun l => match dfind l given with Some c => c | None => 0%Qc end)).
  rewrite map_id. cbn [keys map].
  destruct (insertAll_spec (length lmin) feas []) as (I1 & I2 & I3).
  - apply Forall_forall. intros l Hl. apply FI in Hl as [Hl _]. symmetry. now apply Forall2_length in Hl.
  - constructor.
  - constructor.
  - split; auto. split; auto. intros l. rewrite I3, FI. simpl. tauto.
Qed.

(** * The matrix *)
(** Sign of [b] in the coefficient of [a]: minus one to the number of dimensions in which [b] is one larger. *)
Definition ent (a b : list Z) : Z :=
  if vgeb b a && vleb b (map (fun y => y + 1) a) then signPow (zsum (map2 Z.sub b a)) else 0.

Lemma maxElement_le : forall l m, l <> [] -> (maxElement l <= m <-> Forall (fun x => x <= m) l).
Proof.
  intros [|a l] m Hne; [congruence|]. unfold maxElement. clear Hne. revert a. induction l as [|b l IH]; intros a; cbn [fold_left].
  - split; [repeat constructor; auto|intros H; now inv H].
  - rewrite IH. split; intros H; inv H.
    + constructor; [lia|]. constructor; [lia|auto].
    + inv H3. constructor; auto. lia.
Qed.

Lemma invEntry_ent : forall a b, length a = length b -> a <> [] -> invEntry a b = ent a b.
Proof.
  intros a b L Hne. unfold invEntry, ent. rewrite levelSum_zsum, vsub_map2.
  set (diff := map2 Z.sub b a).
  assert (C : ((maxElement diff <=? 1) && forallb (fun x => 0 <=? x) diff) = vgeb b a && vleb b (map (fun y => y + 1) a)).
  { apply eq_true_iff_eq. rewrite !andb_true_iff. rewrite vgeb_spec by auto. rewrite vleb_spec by (rewrite map_length; auto).
    rewrite Z.leb_le, maxElement_le, forallb_forall.
    - unfold diff. clear Hne diff. revert b L. induction a as [|x a IH]; intros [|y b] L; simpl in L; try discriminate; cbn [map2 map].
      + split; intros _; split; constructor || contradiction.
      + specialize (IH b ltac:(lia)). split.
        * intros [H1 H2]. inv H1. destruct IH as [IH _]. destruct IH as [I1 I2].
          { split; auto. intros z Hz. apply H2. now right. }
          specialize (H2 _ (or_introl eq_refl)). split; constructor; auto; lia.
        * intros [H1 H2]. inv H1. inv H2. destruct IH as [_ IH]. destruct IH as [I1 I2]; [auto|].
          split; [constructor; auto; lia|]. intros z [<-|Hz]; [lia|auto].
    - unfold diff. destruct a, b; simpl in *; congruence. }
  rewrite C. destruct (vgeb b a && vleb b (map (fun y => y + 1) a)) eqn:E; [|now rewrite andb_false_r].
  assert (B : zsum diff <= Z.of_nat (length a)).
  { apply andb_true_iff in C as [C _]. apply Z.leb_le in C. apply maxElement_le in C; [|unfold diff; destruct a, b; simpl in *; congruence].
    assert (Ld : length diff = length a) by (unfold diff; rewrite map2_length; auto).
    rewrite <- Ld. clear - C. induction C; [rewrite zsum_nil; simpl; lia|]. rewrite zsum_cons. cbn [length]. lia. }
  replace (zsum diff <=? Z.of_nat (length a)) with true by (symmetry; now apply Z.leb_le).
  rewrite orb_true_r. reflexivity.
Qed.

Lemma F2le_refl : forall a, Forall2 Z.le a a.
Proof. induction a; constructor; auto. lia. Qed.

Lemma F2le_antisym : forall a b, Forall2 Z.le a b -> Forall2 Z.le b a -> a = b.
Proof. induction 1; intros H1; inv H1; auto. f_equal; [lia|auto]. Qed.

Lemma ent_dom : forall a b, length a = length b -> ent a b <> 0 -> Forall2 Z.le a b.
Proof.
  intros a b L H. unfold ent in H. destruct (vgeb b a) eqn:E; cbn [andb] in H; [|congruence]. now apply vgeb_spec in E.
Qed.

Lemma invRows_ent : forall n r pre, n <> 0%nat -> StronglySorted lexlt (pre ++ r) -> Forall (fun k => length k = n) (pre ++ r) ->
  invRows (length pre) r = map (fun a => map (ent a) (pre ++ r)) r.
Proof.
  intros n. induction r as [|w r IH]; intros pre Hn SS F; [reflexivity|]. cbn [invRows map]. f_equal.
  - rewrite map_app. f_equal.
    + assert (Hw : length w = n) by (rewrite Forall_forall in F; apply F, in_or_app; right; now left).
      assert (G : forall x, In x pre -> ent w x = 0).
      { intros x Hx. destruct (Z.eq_dec (ent w x) 0) as [|NE]; auto. exfalso.
        assert (Lx : length x = n) by (rewrite Forall_forall in F; apply F, in_or_app; now left).
        apply ent_dom in NE; [|lia]. apply dominated_lex in NE.
        assert (LT : lexlt x w).
        { clear - SS Hx. induction pre as [|y pre IH]; [contradiction|]. cbn [app] in SS. inv SS. destruct Hx as [->|Hx]; auto.
          rewrite Forall_forall in H2. apply H2, in_or_app. right. now left. }
        destruct NE as [<-|NE]; [eapply lexlt_irrefl; eauto|]. eapply lexlt_irrefl, lexlt_trans; eauto. }
      clear - G. induction pre as [|x pre IH]; [reflexivity|]. cbn [length repeat map]. rewrite G by (now left). f_equal.
      apply IH. intros y Hy. apply G. now right.
    + change (map (invEntry w) (w :: r) = map (ent w) (w :: r)). apply map_ext_in. intros b Hb. apply invEntry_ent.
      * rewrite Forall_forall in F. rewrite !F; auto; apply in_or_app; right; auto. now left.
      * intros ->. rewrite Forall_forall in F. specialize (F [] ltac:(apply in_or_app; right; now left)). simpl in F. congruence.
  - replace (S (length pre)) with (length (pre ++ [w])) by (rewrite app_length; simpl; lia).
    rewrite IH; auto; rewrite <- app_assoc; auto.
Qed.

(** * Sums over a sorted list of levels *)
Lemma qdot_map : forall {A} (f g : A -> Qc) l, qdot (map f l) (map g l) = qsum (map (fun x => f x * g x)%Qc l).
Proof. intros A f g. induction l; auto. cbn [map qdot qsum fold_right]. rewrite IHl. reflexivity. Qed.

Lemma dot_map : forall {A} (f : A -> Z) (g : A -> Qc) l, dot (map f l) (map g l) = qsum (map (fun x => zq (f x) * g x)%Qc l).
Proof. intros A f g. induction l; auto. cbn [map dot qsum fold_right]. rewrite IHl. reflexivity. Qed.

Lemma zq_zsum : forall {A} (f : A -> Z) l, zq (zsum (map f l)) = qsum (map (fun x => zq (f x)) l).
Proof. intros A f. induction l; [reflexivity|]. cbn [map]. rewrite zsum_cons, zq_add, IHl. reflexivity. Qed.

Lemma qsum_one : forall (l : list (list Z)) (f : list Z -> Qc) b, NoDup l -> In b l -> (forall x, In x l -> x <> b -> f x = 0%Qc) ->
  qsum (map f l) = f b.
Proof.
  induction l as [|x l IH]; intros f b ND Hb H; [contradiction|]. inv ND. cbn [map qsum fold_right].
  destruct (list_eq_dec Z.eq_dec x b) as [->|NE].
  - fold (qsum (map f l)). rewrite qs_zero; [ring|]. intros y Hy. apply H; [now right|]. intros ->. contradiction.
  - destruct Hb as [|Hb]; [congruence|]. fold (qsum (map f l)). rewrite (IH f b); auto.
    + rewrite H; auto; [ring|now left].
    + intros y Hy. apply H. now right.
Qed.

(** Value of the variable of a level. *)
Definition val (K : list (list Z)) (w : list Qc) (l : list Z) : Qc := match dfind l (combine K w) with Some x => x | None => 0%Qc end.

Lemma val_map : forall K w, NoDup K -> length w = length K -> w = map (val K w) K.
Proof.
  intros K w ND L. apply (nth_ext _ _ 0%Qc (val K w [])); [now rewrite map_length|]. intros i Hi.
  rewrite (map_nth (val K w)). unfold val. rewrite (dfind_combine K w i 0%Qc); auto. lia.
Qed.

Section Reduced.
Variables (n : nat) (lmin : list Z) (K : list (list Z)).
Hypothesis Hn : n <> 0%nat.
Hypothesis Hlen : Forall (fun k => length k = n) K.
Hypothesis Hsorted : StronglySorted lexlt K.
Hypothesis Hlow : forall k, In k K -> Forall2 Z.le lmin k.
Hypothesis Hclosed : forall x y, In x K -> Forall2 Z.le lmin y -> Forall2 Z.le y x -> In y K.

Lemma K_NoDup : NoDup K.
Proof. now apply lexsorted_NoDup. Qed.

Lemma ent_column : forall s b, In s K -> In b K ->
  zsum (map (fun a => if vgeb a s then ent a b else 0) K) = if list_eq_dec Z.eq_dec s b then 1 else 0.
Proof.
  intros s b Hs Hb. pose proof Hlen as HL. rewrite Forall_forall in HL.
  rewrite (zsum_map_ext _ _ (fun a => if vgeb a s && (vgeb b a && vleb b (map (fun y => y + 1) a))
                                      then signPow (zsum (map2 Z.sub b a)) else 0)).
  2:{ intros a _. unfold ent. destruct (vgeb a s); reflexivity. }
  pose proof K_NoDup as KND. destruct (vgeb b s) eqn:V.
  - apply vgeb_spec in V; [|rewrite !HL; auto].
    rewrite <- (alternating_box s b V). rewrite <- zsum_filter_ite. apply zsum_perm, Permutation_map. apply NoDup_Permutation.
    + now apply NoDup_filter.
    + apply cart_NoDup. clear. revert b. induction s as [|a k IH]; intros [|c x]; cbn [map2]; constructor; auto. apply zrange_NoDup.
    + intros l. rewrite filter_In, cart_In. split.
      * intros [Il C]. apply andb_true_iff in C as [C1 C2]. apply andb_true_iff in C2 as [C2 C3].
        apply vgeb_spec in C1; [|rewrite !HL; auto]. apply vgeb_spec in C2; [|rewrite !HL; auto].
        apply vleb_spec in C3; [|rewrite map_length, !HL; auto]. clear -C1 C2 C3.
        revert b C2 C3. induction C1 as [|kd ld k0 l0 H C1 IH]; intros x C2 C3; inv C2; cbn [map2]; constructor.
        -- apply zrange_In. inv C3. lia.
        -- inv C3. auto.
      * intros B. assert (C : Forall2 Z.le s l /\ Forall2 Z.le l b /\ Forall2 Z.le b (map (fun y => y + 1) l)).
        { clear -B V. revert l B. induction V as [|kd xd k0 x0 H V IH]; intros l B; cbn [map2] in B; inv B.
          - split; [|split]; constructor.
          - match goal with H : In _ (zrange _ _) |- _ => apply zrange_In in H end.
            match goal with H : Forall2 _ _ ?r |- _ => destruct (IH _ H) as (I1 & I2 & I3) end.
            cbn [map]. split; [|split]; constructor; auto; lia. }
        destruct C as (C1 & C2 & C3). assert (Il : In l K).
        { apply (Hclosed b); auto. exact (Forall2_le_trans _ _ _ (Hlow s Hs) C1). }
        split; auto. apply Forall2_length in C1 as L1. apply Forall2_length in C2 as L2.
        apply andb_true_iff. split; [apply vgeb_spec; auto|]. apply andb_true_iff.
        split; [apply vgeb_spec; auto|apply vleb_spec; auto]. rewrite map_length. lia.
  - destruct (list_eq_dec Z.eq_dec s b) as [->|].
    { assert (vgeb b b = true); [|congruence]. apply vgeb_spec; auto. apply F2le_refl. }
    apply zsum_map_0. intros a Ha. destruct (vgeb a s && (vgeb b a && vleb b (map (fun y => y + 1) a))) eqn:C; auto.
    exfalso. apply andb_true_iff in C as [C1 C2]. apply andb_true_iff in C2 as [C2 _].
    apply vgeb_spec in C1; [|rewrite !HL; auto]. apply vgeb_spec in C2; [|rewrite !HL; auto].
    assert (vgeb b s = true); [|congruence]. apply vgeb_spec; [rewrite !HL; auto|]. eapply Forall2_le_trans; eauto.
Qed.

Variable wv : list Z -> Qc.
(** The new coefficient of a level. *)
Definition coef (a : list Z) : Qc := qsum (map (fun b => zq (ent a b) * wv b)%Qc K).

(** Every subspace is counted as often as its variable says. *)
Lemma moebius : forall s, In s K -> qsum (map (fun a => if vgeb a s then coef a else 0%Qc) K) = wv s.
Proof.
  intros s Hs.
  transitivity (qsum (map (fun a => qsum (map (fun b => zq (if vgeb a s then ent a b else 0) * wv b)%Qc K)) K)).
  - apply qs_ext. intros a _. unfold coef. destruct (vgeb a s); auto. symmetry. apply qs_zero. intros b _. rewrite zq_0. ring.
  - rewrite (qs_swap (fun a b => zq (if vgeb a s then ent a b else 0) * wv b)%Qc).
    rewrite (qs_ext _ (fun b => zq (if list_eq_dec Z.eq_dec s b then 1 else 0) * wv b)%Qc).
    + rewrite (qsum_one K _ s K_NoDup Hs).
      * destruct (list_eq_dec Z.eq_dec s s); [|congruence]. rewrite zq_1. ring.
      * intros x _ NE. destruct (list_eq_dec Z.eq_dec s x); [congruence|]. rewrite zq_0. ring.
    + intros b Hb. rewrite <- (ent_column s b Hs Hb), zq_zsum.
      rewrite (qs_ext _ (fun a => wv b * zq (if vgeb a s then ent a b else 0))%Qc) by (intros; ring).
      rewrite qs_scale. ring.
Qed.

(** The coefficient of a level vanishes if all its upper neighbours are present and counted once. *)
Lemma coef_interior : forall a, In a K ->
  (forall b, Forall2 (fun x y => x <= y <= x + 1) a b -> In b K /\ wv b = 1%Qc) -> coef a = 0%Qc.
Proof.
  intros a Ha H. pose proof Hlen as HL. rewrite Forall_forall in HL. unfold coef.
  assert (EQ : forall b, In b K -> (zq (ent a b) * wv b)%Qc = zq (ent a b)).
  { intros b Hb. unfold ent. destruct (vgeb b a) eqn:V1; cbn [andb]; [|rewrite zq_0; ring].
    destruct (vleb b (map (fun y => y + 1) a)) eqn:V2; [|rewrite zq_0; ring].
    apply vgeb_spec in V1; [|rewrite !HL; auto]. apply vleb_spec in V2; [|rewrite map_length, !HL; auto].
    destruct (H b) as [_ ->]; [|ring]. clear - V1 V2. revert V2. induction V1; intros V2; inv V2; constructor; auto. }
  rewrite (qs_ext _ (fun b => zq (ent a b)) K EQ). rewrite <- zq_zsum.
  assert (Z0 : zsum (map (ent a) K) = 0); [|now rewrite Z0].
  transitivity (zsum (map (fun b => signPow (zsum (map2 Z.sub b a))) (cart (map (fun x => zrange x (x + 2)) a)))).
  - rewrite (zsum_map_ext _ _ (fun b => if vgeb b a && vleb b (map (fun y => y + 1) a) then signPow (zsum (map2 Z.sub b a)) else 0))
      by reflexivity.
    rewrite <- zsum_filter_ite. apply zsum_perm, Permutation_map. apply NoDup_Permutation.
    + apply NoDup_filter. exact K_NoDup.
    + apply cart_NoDup. clear. induction a; constructor; auto. apply zrange_NoDup.
    + intros b. rewrite filter_In, cart_In, andb_true_iff. split.
      * intros [Hb [V1 V2]]. apply vgeb_spec in V1; [|rewrite !HL; auto]. apply vleb_spec in V2; [|rewrite map_length, !HL; auto].
        clear - V1 V2. revert V2. induction V1; intros V2; inv V2; cbn [map]; constructor; auto. apply zrange_In. lia.
      * intros B. assert (C : Forall2 (fun x y => x <= y <= x + 1) a b).
        { clear - B. revert b B. induction a; intros b B; cbn [map] in B; inv B; constructor; auto.
          match goal with H : In _ (zrange _ _) |- _ => apply zrange_In in H end. lia. }
        destruct (H b C) as [Hb _]. split; auto. apply Forall2_length in C as L. split.
        -- apply vgeb_spec; auto. clear - C. induction C; constructor; auto. lia.
        -- apply vleb_spec; [rewrite map_length; auto|]. clear - C. induction C; cbn [map]; constructor; auto. lia.
  - assert (Ha' : a <> []) by (intros ->; specialize (HL [] Ha); simpl in HL; congruence).
    transitivity (zsum (map (fun l => zprod (map2 (fun f y => f y) (map (fun x l => signPow (l - x)) a) l))
                            (cart (map (fun x => zrange x (x + 2)) a)))).
    + apply zsum_map_ext. intros b Hb. apply cart_In in Hb. rewrite signPow_prod. f_equal.
      clear - Hb. revert b Hb. induction a; intros b Hb; cbn [map] in Hb; inv Hb; cbn [map map2]; auto. f_equal. auto.
    + rewrite sum_cart by (now rewrite !map_length). destruct a as [|x a]; [congruence|]. cbn [map map2]. rewrite zprod_cons.
      rewrite zrange_cons, zrange_cons, zrange_nil by lia. cbn [map]. rewrite !zsum_cons, zsum_nil, Z.sub_diag.
      replace (x + 1 - x) with 1 by lia. reflexivity.
Qed.
End Reduced.

(** * The linear program in terms of levels *)
Lemma auxDict_keys : forall s, keys (sAux s) = sLevelsOf s.
Proof. intros s. unfold sAux, auxDict. rewrite combine_keys; [reflexivity|]. now rewrite map_length, zseq_length. Qed.

Definition wfSetup (n : nat) (lmin : list Z) (s : setup) : Prop :=
  n <> 0%nat /\ Forall (fun k => length k = n) (sLevelsOf s) /\ StronglySorted lexlt (sLevelsOf s) /\
  (forall k, In k (sLevelsOf s) -> Forall2 Z.le lmin k) /\
  (forall x y, In x (sLevelsOf s) -> Forall2 Z.le lmin y -> Forall2 Z.le y x -> In y (sLevelsOf s)) /\
  (forall f, In f (sValid s) -> In f (sLevelsOf s)).

Lemma matrix_eq : forall n lmin s, wfSetup n lmin s ->
  sMatrix s = map (fun a => map (ent a) (sLevelsOf s)) (sLevelsOf s).
Proof.
  intros n lmin s (Hn & HL & HS & _). unfold sMatrix, invM. fold (keys (sAux s)). rewrite auxDict_keys.
  exact (invRows_ent n (sLevelsOf s) [] Hn HS HL).
Qed.

Lemma aux_index : forall s l, NoDup (sLevelsOf s) -> In l (sLevelsOf s) ->
  exists i, dfind l (sAux s) = Some (Z.of_nat i) /\ (i < length (sLevelsOf s))%nat /\ nth i (sLevelsOf s) [] = l.
Proof.
  intros s l ND Hl. apply (In_nth _ _ []) in Hl as (i & Hi & E). exists i. split; [|split; auto].
  unfold sAux, auxDict. rewrite <- E at 1. fold (sLevelsOf s).
  rewrite (dfind_combine (sLevelsOf s) _ i 0); auto.
  - rewrite zseq_nth; [reflexivity|]. unfold sLevelsOf in Hi. now rewrite map_length in Hi.
  - unfold sLevelsOf. now rewrite zseq_length, map_length.
Qed.

Lemma constraints_eq : forall n lmin s, wfSetup n lmin s ->
  constraints s = Some (map (fun f => map (ent f) (sLevelsOf s)) (sValid s)).
Proof.
  intros n lmin s W. pose proof W as (Hn & HL & HS & _ & _ & HV). unfold constraints. rewrite (matrix_eq n lmin s W).
  induction (sValid s) as [|f r IH]; [reflexivity|]. cbn [constraintRows map].
  destruct (aux_index s f (lexsorted_NoDup _ HS) (HV f (or_introl eq_refl))) as (i & E & Hi & En).
  rewrite E, IH by (intros; apply HV; now right). rewrite Nat2Z.id.
  rewrite (nth_indep _ [] (map (ent []) (sLevelsOf s))) by (now rewrite map_length).
  rewrite (map_nth (fun a => map (ent a) (sLevelsOf s)) (sLevelsOf s) []). now rewrite En.
Qed.

Lemma allCoeffs_eq : forall n lmin s w, wfSetup n lmin s -> length w = length (sLevelsOf s) ->
  allCoeffs s w = map (coef (sLevelsOf s) (val (sLevelsOf s) w)) (sLevelsOf s).
Proof.
  intros n lmin s w W L. pose proof W as (Hn & HL & HS & _). unfold allCoeffs. rewrite (matrix_eq n lmin s W), map_map.
  apply map_ext. intros a. unfold coef. rewrite <- dot_map. f_equal. apply val_map; auto. now apply lexsorted_NoDup.
Qed.

Lemma val_admissible : forall integral s w l, feasible integral s w -> In l (sLevelsOf s) -> NoDup (sLevelsOf s) ->
  admissible integral (val (sLevelsOf s) w l).
Proof.
  intros integral s w l (L & F & _) Hl ND. rewrite Forall_forall in F. apply F.
  rewrite (val_map (sLevelsOf s) w ND L) at 2. now apply in_map.
Qed.

Lemma fault_coef : forall n lmin integral s w f, wfSetup n lmin s -> feasible integral s w -> In f (sValid s) ->
  coef (sLevelsOf s) (val (sLevelsOf s) w) f = 0%Qc.
Proof.
  intros n lmin integral s w f W (L & F & rows & C & R) Hf. pose proof W as (Hn & HL & HS & _).
  rewrite (constraints_eq n lmin s W) in C. inv C. rewrite Forall_map in R. rewrite Forall_forall in R. specialize (R f Hf).
  unfold coef. rewrite <- dot_map, <- val_map; auto. now apply lexsorted_NoDup.
Qed.

Lemma pow4_pos : forall n, (0 < Qcpower (Q2Qc (1 # 4)) n)%Qc.
Proof.
  induction n; cbn [Qcpower]; [reflexivity|]. replace 0%Qc with (0 * Qcpower (Q2Qc (1 # 4)) n)%Qc by ring.
  apply Qcmult_lt_compat_r; auto. reflexivity.
Qed.

(** A level that is not above a valid fault is counted once in every optimal solution. *)
Lemma optimal_one : forall n lmin integral s w b, wfSetup n lmin s -> optimal integral s w -> In b (sLevelsOf s) ->
  (forall f, In f (sValid s) -> ~ Forall2 Z.le f b) -> val (sLevelsOf s) w b = 1%Qc.
Proof.
  intros n lmin integral s w b W [FE OP] Hb NF. pose proof W as (Hn & HL & HS & _ & _ & HV).
  set (K := sLevelsOf s) in *. assert (ND : NoDup K) by (now apply lexsorted_NoDup).
  pose proof FE as (L & F & rows & C & R). fold K in L.
  pose proof (val_map K w ND L) as WM. set (wv := val K w) in *.
  set (wv' := fun l => if list_eq_dec Z.eq_dec l b then 1%Qc else wv l).
  assert (FE' : feasible integral s (map wv' K)).
  { split; [now rewrite map_length|]. split.
    - rewrite Forall_map, Forall_forall. intros l Hl. unfold wv'. destruct (list_eq_dec Z.eq_dec l b).
      + split; [discriminate|]. split; [discriminate|]. auto.
      + rewrite Forall_forall in F. apply F. rewrite WM. now apply in_map.
    - exists rows. split; auto. rewrite (constraints_eq n lmin s W) in C. fold K in C. injection C as C. rewrite <- C in R |- *.
      rewrite Forall_map in R |- *. rewrite Forall_forall in R |- *. intros f Hf. specialize (R f Hf).
      rewrite WM, dot_map in R. rewrite dot_map. rewrite <- R. apply qs_ext. intros l Hl. unfold wv'.
      destruct (list_eq_dec Z.eq_dec l b) as [->|]; auto.
      assert (E0 : ent f b = 0).
      { destruct (Z.eq_dec (ent f b) 0) as [|NE]; auto. exfalso. apply (NF f Hf). apply ent_dom in NE; auto.
        rewrite Forall_forall in HL. rewrite !HL; auto. }
      rewrite E0, zq_0. ring. }
  assert (A : admissible integral (wv b)) by (apply (val_admissible integral s w b FE Hb ND)).
  assert (EQ : qdot (objective s) w = qdot (objective s) (map wv K)) by (now rewrite <- WM).
  specialize (OP _ FE'). rewrite EQ in OP. unfold objective in OP. fold K in OP. rewrite !qdot_map in OP.
  set (g := fun l => Qcpower (Q2Qc (1 # 4)) (Z.to_nat (l1norm l))) in *.
  assert (D : (qsum (map (fun x => g x * wv' x) K) = qsum (map (fun x => g x * wv x) K) + g b * (1 - wv b))%Qc).
  { transitivity (qsum (map (fun x => g x * wv x) K) + qsum (map (fun x => g x * (wv' x - wv x)) K))%Qc.
    - rewrite <- qs_plus. apply qs_ext. intros. ring.
    - f_equal. rewrite (qsum_one K (fun x => g x * (wv' x - wv x))%Qc b ND Hb).
      + unfold wv'. destruct (list_eq_dec Z.eq_dec b b); [ring|congruence].
      + intros x _ NE. unfold wv'. destruct (list_eq_dec Z.eq_dec x b); [congruence|ring]. }
  change (qsum (map (fun x => g x * wv' x) K) <= qsum (map (fun x => g x * wv x) K))%Qc in OP.
  rewrite D in OP.
  destruct A as (A0 & A1 & _). apply Qcle_antisym; auto.
  assert (G : (0 < g b)%Qc) by apply pow4_pos.
  apply Qcnot_lt_le. intros LT. assert (X : (0 < g b * (1 - wv b))%Qc).
  { replace 0%Qc with (0 * (1 - wv b))%Qc by ring. apply Qcmult_lt_compat_r; auto. qlra. }
  qlra.
Qed.

(** * Ignored dimensions *)
Lemma ignoredFrom_ge : forall lmin lmax i j, In j (ignoredFrom i lmin lmax) -> i <= j.
Proof.
  induction lmin as [|a m IH]; destruct lmax as [|b r]; intros i j H; simpl in H; try contradiction.
  apply in_app_iff in H as [H|H]; [destruct (b =? a); simpl in H; lia|]. apply IH in H. lia.
Qed.

Lemma ignored_head : forall a b m r i, existsb (Z.eqb i) (ignoredFrom i (a :: m) (b :: r)) = (b =? a).
Proof.
  intros. cbn [ignoredFrom]. rewrite existsb_app. destruct (b =? a); cbn [existsb]; [now rewrite Z.eqb_refl|].
  destruct (existsb (Z.eqb i) (ignoredFrom (i + 1) m r)) eqn:E; auto. apply existsb_exists in E as (j & Hj & E).
  apply ignoredFrom_ge in Hj. lia.
Qed.

Lemma ignored_tail : forall a b m r i j, i + 1 <= j ->
  existsb (Z.eqb j) (ignoredFrom i (a :: m) (b :: r)) = existsb (Z.eqb j) (ignoredFrom (i + 1) m r).
Proof.
  intros. cbn [ignoredFrom]. rewrite existsb_app. destruct (b =? a); cbn [existsb]; auto.
  replace (j =? i) with false by (symmetry; apply Z.eqb_neq; lia). reflexivity.
Qed.

Lemma drop_erase_gen : forall lmin lmax v i ig, length lmin = length lmax -> length v = length lmin ->
  (forall j, i <= j -> existsb (Z.eqb j) ig = existsb (Z.eqb j) (ignoredFrom i lmin lmax)) ->
  map snd (filter (fun p => negb (existsb (Z.eqb (fst p)) ig)) (combine (zseq i (length v)) v))
  = eraseDummies (dummyMask lmin lmax) v.
Proof.
  induction lmin as [|a m IH]; destruct lmax as [|b r]; intros v i ig L1 L2 H; simpl in L1; try discriminate.
  - destruct v; [reflexivity|discriminate].
  - destruct v as [|x v]; [discriminate|]. cbn [length zseq combine filter fst dummyMask map2 eraseDummies].
    rewrite (H i) by lia. rewrite ignored_head.
    replace (b - a =? 0) with (b =? a) by (destruct (Z.eqb_spec b a), (Z.eqb_spec (b - a) 0); auto; lia).
    destruct (b =? a); cbn [negb map snd]; [|f_equal]; (apply (IH r v (i + 1)); [lia|simpl in L2; lia|]);
      intros j Hj; rewrite H by lia; apply ignored_tail; auto.
Qed.

Lemma drop_erase : forall lmin lmax v, length lmin = length lmax -> length v = length lmin ->
  dropIgnored (ignoredFrom 0 lmin lmax) v = eraseDummies (dummyMask lmin lmax) v.
Proof. intros. unfold dropIgnored. now apply drop_erase_gen. Qed.

Lemma complete_erase_gen : forall lmin lmax first l i ig, length lmin = length lmax -> length first = length lmin -> length l = length lmin ->
  (forall j, i <= j -> existsb (Z.eqb j) ig = existsb (Z.eqb j) (ignoredFrom i lmin lmax)) ->
  selectDummies (dummyMask lmin lmax) first = selectDummies (dummyMask lmin lmax) l ->
  completeFrom i ig first (eraseDummies (dummyMask lmin lmax) l) = l.
Proof.
  induction lmin as [|a m IH]; destruct lmax as [|b r]; intros first l i ig L1 L2 L3 H HS; simpl in L1; try discriminate.
  - destruct first; [|discriminate]. destruct l; [reflexivity|discriminate].
  - destruct first as [|x first]; [discriminate|]. destruct l as [|y l]; [discriminate|].
    cbn [completeFrom dummyMask map2 eraseDummies selectDummies] in *.
    rewrite (H i) by lia. rewrite ignored_head.
    replace (b - a =? 0) with (b =? a) in * by (destruct (Z.eqb_spec b a), (Z.eqb_spec (b - a) 0); auto; lia).
    assert (HT : forall j, i + 1 <= j -> existsb (Z.eqb j) ig = existsb (Z.eqb j) (ignoredFrom (i + 1) m r)).
    { intros j Hj. rewrite H by lia. now apply ignored_tail. }
    simpl in L2, L3. destruct (b =? a).
    + inv HS. f_equal. apply IH; auto; lia.
    + cbn [nth tl]. f_equal. apply IH; auto; lia.
Qed.

Lemma select_between : forall lmin k lmax, Forall2 Z.le lmin k -> Forall2 Z.le k lmax ->
  selectDummies (dummyMask lmin lmax) k = selectDummies (dummyMask lmin lmax) lmin.
Proof.
  intros lmin k lmax H. revert lmax. induction H; intros lmax Hm; inv Hm; auto. cbn [dummyMask map2 selectDummies].
  destruct (Z.eqb_spec (y0 - x) 0); [f_equal; [lia|]|]; now apply IHForall2.
Qed.

Lemma erase_lex : forall m k k', length k = length m -> length k' = length m -> selectDummies m k = selectDummies m k' ->
  lexlt k k' -> lexlt (eraseDummies m k) (eraseDummies m k').
Proof.
  induction m as [|b m IH]; intros k k' L1 L2 HS HL.
  - destruct k; [|discriminate]. destruct k'; [|discriminate]. exact HL.
  - destruct k as [|x k]; [discriminate|]. destruct k' as [|y k']; [discriminate|].
    cbn [eraseDummies selectDummies] in *. simpl in L1, L2. destruct b.
    + inv HS. inv HL; [lia|]. apply IH; auto.
    + inv HL; [now constructor|]. apply lex_tail. apply IH; auto.
Qed.

Lemma erase_le : forall m k k', length k = length m -> length k' = length m -> selectDummies m k = selectDummies m k' ->
  (Forall2 Z.le k k' <-> Forall2 Z.le (eraseDummies m k) (eraseDummies m k')).
Proof.
  induction m as [|b m IH]; intros k k' L1 L2 HS.
  - destruct k; [|discriminate]. destruct k'; [|discriminate]. simpl. tauto.
  - destruct k as [|x k]; [discriminate|]. destruct k' as [|y k']; [discriminate|].
    cbn [eraseDummies selectDummies] in *. simpl in L1, L2. destruct b.
    + inv HS. rewrite <- IH by (auto; lia). split; intros H; [now inv H|constructor; auto; lia].
    + destruct (IH k k' ltac:(lia) ltac:(lia) HS) as [I1 I2]. split; intros H; inv H; constructor; auto.
Qed.

Lemma erase_inj : forall m k k', length k = length m -> length k' = length m -> selectDummies m k = selectDummies m k' ->
  eraseDummies m k = eraseDummies m k' -> k = k'.
Proof. intros m k k' L1 L2 HS HE. rewrite <- (weave_split m k L1), <- (weave_split m k' L2). congruence. Qed.

Lemma mask_length : forall lmin lmax, length lmin = length lmax -> length (dummyMask lmin lmax) = length lmin.
Proof. intros. rewrite dummyMask_length by auto. auto. Qed.

(** * The whole setup *)
(** A combination scheme as the program builds it: between the minimum and the maximum level, every level below one with
    positive coefficient. *)
Definition validScheme (lmin lmax : list Z) (given : dict Qc) : Prop :=
  wfDict (length lmin) given /\ Forall2 Z.le lmin lmax /\ Forall (fun x => 1 <= x) lmin /\ lmin <> lmax /\
  Forall (fun k => Forall2 Z.le lmin k /\ Forall2 Z.le k lmax) (keys given) /\
  Forall (fun k => exists a c, In (a, c) given /\ (0 < c)%Qc /\ Forall2 Z.le k a) (keys given).

Definition redMask (lmin lmax : list Z) := dummyMask lmin lmax.
Definition red (lmin lmax k : list Z) : list Z := eraseDummies (redMask lmin lmax) k.
(** A failed level in the two finest diagonals. *)
Definition topFault (lmin lmax f : list Z) : bool :=
  let N := topSum (red lmin lmax lmin) (red lmin lmax lmax) in
  (levelSum (red lmin lmax f) =? N) || (levelSum (red lmin lmax f) =? N - 1).

Lemma filter_map' : forall (A B : Type) (g : A -> B) (p : B -> bool) (q : A -> bool) l, (forall x, In x l -> p (g x) = q x) ->
  filter p (map g l) = map g (filter q l).
Proof.
  intros A B g p q. induction l as [|x l IH]; intros H; auto. cbn [map filter]. rewrite H by (now left).
  rewrite IH by (intros; apply H; now right). destruct (q x); reflexivity.
Qed.

Lemma sorted_same : forall (a b : list (list Z)), StronglySorted lexlt a -> StronglySorted lexlt b ->
  (forall x, In x a <-> In x b) -> a = b.
Proof.
  induction a as [|x a IH]; intros b Sa Sb H.
  - destruct b as [|y b]; auto. exfalso. destruct (H y) as [_ H2]. apply H2. now left.
  - destruct b as [|y b]; [exfalso; destruct (H x) as [H1 _]; destruct H1; now left|].
    inv Sa. inv Sb. rewrite Forall_forall in *.
    assert (E : x = y).
    { destruct (H x) as [H0 _]. destruct (H0 (or_introl eq_refl)) as [|Hx]; [congruence|].
      destruct (H y) as [_ H1]. destruct (H1 (or_introl eq_refl)) as [|Hy]; [congruence|].
      exfalso. eapply lexlt_irrefl, lexlt_trans; [apply H5; exact Hx|apply H3; exact Hy]. }
    subst y. f_equal. apply IH; auto. intros z. split; intros Hz.
    + destruct (H z) as [H0 _]. destruct (H0 (or_intror Hz)) as [<-|]; auto. exfalso. apply (lexlt_irrefl x), H3, Hz.
    + destruct (H z) as [_ H0]. destruct (H0 (or_intror Hz)) as [<-|]; auto. exfalso. apply (lexlt_irrefl x), H5, Hz.
Qed.

Section Lift.
Variables (lmin lmax : list Z) (given : dict Qc).
Hypothesis VS : validScheme lmin lmax given.
Let m := redMask lmin lmax.
Let rd := red lmin lmax.
Definition newGiven : dict Qc := map (fun p => (rd (fst p), snd p)) given.

Lemma v_len : length lmin = length lmax.
Proof. destruct VS as (_ & H & _). now apply Forall2_length in H. Qed.
Lemma v_mask : length m = length lmin.
Proof. apply mask_length. apply v_len. Qed.
Lemma v_key_len : forall k, In k (keys given) -> length k = length m.
Proof. intros k Hk. rewrite v_mask. destruct VS as ((_ & H) & _). rewrite Forall_forall in H. auto. Qed.
Lemma v_sel : forall k, Forall2 Z.le lmin k -> Forall2 Z.le k lmax -> selectDummies m k = selectDummies m lmin.
Proof. intros. now apply select_between. Qed.
Lemma v_key_sel : forall k, In k (keys given) -> selectDummies m k = selectDummies m lmin.
Proof. intros k Hk. destruct VS as (_ & _ & _ & _ & H & _). rewrite Forall_forall in H. destruct (H k Hk). now apply v_sel. Qed.

Lemma map_sorted' : forall (A B : Type) (R : A -> A -> Prop) (Q : B -> B -> Prop) (f : A -> B) l,
  (forall x y, In x l -> In y l -> R x y -> Q (f x) (f y)) -> StronglySorted R l -> StronglySorted Q (map f l).
Proof.
  intros A B R Q f l H SS. induction SS as [|x l SS IH F]; cbn [map]; constructor.
  - apply IH. intros. apply H; auto; now right.
  - rewrite Forall_map, Forall_forall in *. intros y Hy. apply H; auto; [now left|now right].
Qed.

Lemma newGiven_keys : keys newGiven = map rd (keys given).
Proof. unfold newGiven, keys. rewrite !map_map. reflexivity. Qed.

Lemma newGiven_wf : wfDict (length (rd lmin)) newGiven.
Proof.
  split; rewrite newGiven_keys.
  - apply (map_sorted' _ _ lexlt lexlt); [|destruct VS as ((H & _) & _); exact H].
    intros x y Hx Hy HL. apply erase_lex; auto using v_key_len. exact (eq_trans (v_key_sel x Hx) (eq_sym (v_key_sel y Hy))).
  - rewrite Forall_map, Forall_forall. intros k Hk. unfold rd, red. rewrite !eraseDummies_length; auto.
    + symmetry. apply v_mask.
    + now apply v_key_len.
Qed.

Lemma newGiven_eq : newGivenDict (ignoredFrom 0 lmin lmax) given = newGiven.
Proof.
  unfold newGivenDict.
  assert (E : forall l d, (forall p, In p l -> In (fst p) (keys given)) ->
    fold_left (fun d (p : list Z * Qc) => dinsert (dropIgnored (ignoredFrom 0 lmin lmax) (fst p)) (snd p) d) l d
    = fold_left (fun d p => dinsert (rd (fst p)) (snd p) d) l d).
  { induction l as [|p l IH]; intros d H; auto. cbn [fold_left]. rewrite drop_erase.
    - apply IH. intros q Hq. apply H. now right.
    - apply v_len.
    - rewrite v_key_len by (apply H; now left). apply v_mask. }
  rewrite E by (intros p Hp; now apply in_map). pose proof newGiven_wf as [W1 W2].
  assert (ME : map (fun p : list Z * Qc => rd (fst p)) given = keys newGiven).
  { rewrite newGiven_keys. unfold keys. now rewrite map_map. }
  rewrite (insertAll_sorted (length (rd lmin)) (fun p : list Z * Qc => rd (fst p)) snd given []).
  - reflexivity.
  - cbn [keys map app]. rewrite ME. exact W1.
  - cbn [keys map app]. rewrite ME. exact W2.
Qed.

Lemma rd_le : forall k k', length k = length m -> length k' = length m -> selectDummies m k = selectDummies m lmin ->
  selectDummies m k' = selectDummies m lmin -> (Forall2 Z.le k k' <-> Forall2 Z.le (rd k) (rd k')).
Proof. intros k k' L1 L2 S1 S2. apply erase_le; auto. exact (eq_trans S1 (eq_sym S2)). Qed.

Lemma rd_nonempty : rd lmin <> [].
Proof. destruct VS as (_ & F & _ & NE & _). apply erase_nonempty; auto. now apply Forall2_length in F. Qed.

Lemma newGiven_given : wfGiven (rd lmin) (rd lmax) newGiven.
Proof.
  pose proof VS as (WD & F & P & NE & B & _). split; [apply newGiven_wf|]. split; [now apply erase_F2|].
  split; [now apply erase_F|]. split; [apply rd_nonempty|].
  rewrite newGiven_keys, Forall_map. rewrite Forall_forall in *. intros k Hk. destruct (B k Hk). split; now apply erase_F2.
Qed.

(** Faults are levels of the scheme. *)
Variable faults : list (list Z).
Hypothesis HF : Forall (fun f => In f (keys given)) faults.

Definition theSetup : setup :=
  Setup (ignoredFrom 0 lmin lmax) given newGiven (entireDownset (rd lmin) (rd lmax) newGiven) faults
        (map rd (filter (topFault lmin lmax) faults)) (map rd (filter (fun f => negb (topFault lmin lmax f)) faults)).

Lemma dfind_newGiven : forall f, In f (keys given) -> exists c, dfind (rd f) newGiven = Some c.
Proof. intros f Hf. apply dfind_key. rewrite newGiven_keys. now apply in_map. Qed.

Lemma construct_eq : construct lmin lmax given faults = Some theSetup.
Proof.
  unfold construct. rewrite newGiven_eq. fold (redMask lmin lmax). fold m. fold (red lmin lmax lmin). fold (red lmin lmax lmax).
  rewrite Forall_forall in HF.
  assert (MF : map (dropIgnored (ignoredFrom 0 lmin lmax)) faults = map rd faults).
  { apply map_ext_in. intros f Hf. apply drop_erase; [apply v_len|]. rewrite v_key_len by auto. apply v_mask. }
  rewrite MF.
  assert (NM : eraseDummies m lmax <> []).
  { pose proof VS as (_ & F & _). intros E. apply rd_nonempty. apply (erase_F2 _ m) in F. rewrite E in F. apply Forall2_length in F.
    apply length_zero_iff_nil. exact F. }
  change (eraseDummies m lmin) with (rd lmin). change (eraseDummies m lmax) with (rd lmax) in *.
  assert (FV : filterFaults (map rd faults) (topSum (rd lmin) (rd lmax)) newGiven = map rd (filter (topFault lmin lmax) faults)).
  { unfold filterFaults. apply filter_map'. intros f Hf. destruct (dfind_newGiven f (HF f Hf)) as [c ->]. reflexivity. }
  destruct (rd lmax) as [|x r] eqn:ER; [congruence|]. rewrite <- ER in *. rewrite FV. unfold theSetup. repeat f_equal.
  apply filter_map'. intros f Hf.
  destruct (in_dec (list_eq_dec Z.eq_dec) (rd f) (map rd (filter (topFault lmin lmax) faults))) as [I|I].
  - apply in_map_iff in I as (g & E & Hg). apply filter_In in Hg as [_ Hg].
    assert (T : topFault lmin lmax f = true).
    { unfold topFault in *. change (red lmin lmax g) with (rd g) in Hg. change (red lmin lmax f) with (rd f). now rewrite <- E. }
    now rewrite T.
  - destruct (topFault lmin lmax f) eqn:T; auto. exfalso. apply I. apply in_map. apply filter_In. auto.
Qed.

Let K := sLevelsOf theSetup.

Lemma K_In : forall l, In l K <-> inDownset (rd lmin) newGiven l.
Proof. intros l. destruct (entire_keys _ _ _ newGiven_given) as (_ & _ & H). apply H. Qed.

Lemma key_in_K : forall k, In k (keys given) -> In (rd k) K.
Proof.
  intros k Hk. apply K_In. pose proof VS as (_ & _ & _ & _ & B & A). rewrite Forall_forall in A, B.
  destruct (B k Hk) as [B1 B2]. split; [now apply erase_F2|]. destruct (A k Hk) as (a & c & Ha & Hc & HL).
  exists (rd a), c. split; [|split; auto].
  - unfold newGiven. apply in_map_iff. exists (a, c). auto.
  - now apply erase_F2.
Qed.

Lemma setup_wf : wfSetup (length (rd lmin)) (rd lmin) theSetup.
Proof.
  destruct (entire_keys _ _ _ newGiven_given) as (H1 & H2 & H3).
  split; [intros E; apply length_zero_iff_nil in E; now apply rd_nonempty|].
  split; [exact H2|]. split; [exact H1|]. split.
  - intros k Hk. apply K_In in Hk. apply Hk.
  - split.
    + intros x y Hx Hy HL. apply K_In in Hx as (_ & a & c & Ha & Hc & Hxa). apply K_In. split; auto.
      exists a, c. split; auto. split; auto. eapply Forall2_le_trans; eauto.
    + intros f Hf. cbn [sValid theSetup] in Hf. apply in_map_iff in Hf as (g & <- & Hg). apply filter_In in Hg as [Hg _].
      rewrite Forall_forall in HF. now apply key_in_K, HF.
Qed.

Variable w : list Qc.
Hypothesis Hw : length w = length K.
Definition newc (k : list Z) : Qc := coef K (val K w) (rd k).

Lemma select_eq : selectCoeffs (allCoeffs theSetup w) newGiven (sAux theSetup) = map newc (keys given).
Proof.
  pose proof setup_wf as W. pose proof W as (_ & HL & HS & _). fold K in HL, HS.
  assert (ND : NoDup K) by (now apply lexsorted_NoDup).
  rewrite (allCoeffs_eq _ _ _ _ W Hw). fold K.
  transitivity (map (coef K (val K w)) (filter (fun l => match dfind l newGiven with Some _ => true | None => false end) K)).
  - unfold sAux, auxDict. fold K. unfold selectCoeffs.
    assert (G : forall pre r vals, K = pre ++ r -> vals = zseq (Z.of_nat (length pre)) (length r) ->
      flat_map (fun p => match dfind (fst p) newGiven with
         | Some _ => [nth (Z.to_nat (snd p)) (map (coef K (val K w)) K) 0%Qc] | None => [] end) (combine r vals)
      = map (coef K (val K w)) (filter (fun l => match dfind l newGiven with Some _ => true | None => false end) r)).
    { intros pre r. revert pre. induction r as [|l r IH]; intros pre vals EK EV; subst vals; [reflexivity|].
      cbn [length zseq combine flat_map filter fst snd].
      rewrite (IH (pre ++ [l])); [|now rewrite <- app_assoc|rewrite app_length; cbn [length]; f_equal; lia].
      destruct (dfind l newGiven); [|reflexivity]. cbn [app map]. f_equal.
      rewrite Nat2Z.id. rewrite (nth_indep _ 0%Qc (coef K (val K w) [])).
      - rewrite map_nth. f_equal. rewrite EK. rewrite app_nth2, Nat.sub_diag by lia. reflexivity.
      - rewrite map_length, EK, app_length. cbn [length]. lia. }
    apply (G [] K); auto. f_equal. unfold K, sLevelsOf. now rewrite map_length.
  - transitivity (map (coef K (val K w)) (keys newGiven)); [|rewrite newGiven_keys, map_map; reflexivity].
    f_equal. apply sorted_same.
    + clear - HS. induction HS; cbn [filter]; [constructor|]. destruct (dfind a newGiven); auto. constructor; auto.
      rewrite Forall_forall in *. intros x Hx. apply filter_In in Hx as [Hx _]. auto.
    + apply newGiven_wf.
    + intros x. rewrite filter_In. split.
      * intros [_ H]. destruct (dfind x newGiven) eqn:E; [|discriminate]. apply dfind_In in E. now apply (in_map fst) in E.
      * intros Hx. split.
        -- rewrite newGiven_keys in Hx. apply in_map_iff in Hx as (k & <- & Hk). now apply key_in_K.
        -- destruct (dfind_key _ _ Hx) as [v ->]. reflexivity.
Qed.

Lemma collect_eq : forall first fs out acc, (forall f, In f fs -> In f (keys given)) ->
  (fs <> [] -> In first (keys given)) -> keys out = keys given -> (forall k, In k (keys given) -> dfind k out = Some (newc k)) ->
  fold_left (fun st f =>
    let l := completeFrom 0 (ignoredFrom 0 lmin lmax) first f in
    match dfind l (fst st) with
    | Some c => if Qc_eq_dec c 0%Qc then st else (fst st, snd st ++ [l])
    | None => (dinsert l 0%Qc (fst st), snd st)
    end) (map rd fs) (out, acc)
  = (out, acc ++ filter (fun f => if Qc_eq_dec (newc f) 0%Qc then false else true) fs).
Proof.
  intros first. induction fs as [|f fs IH]; intros out acc Hfs Hfirst Hk Ho; cbn [map fold_left filter]; [now rewrite app_nil_r|].
  assert (Hf : In f (keys given)) by (apply Hfs; now left).
  assert (C : completeFrom 0 (ignoredFrom 0 lmin lmax) first (rd f) = f).
  { assert (Hi : In first (keys given)) by (apply Hfirst; discriminate).
    apply complete_erase_gen; auto.
    - apply v_len.
    - rewrite v_key_len by auto. apply v_mask.
    - rewrite v_key_len by auto. apply v_mask.
    - exact (eq_trans (v_key_sel first Hi) (eq_sym (v_key_sel f Hf))). }
  cbv zeta. rewrite C. cbn [fst snd]. rewrite (Ho f Hf). destruct (Qc_eq_dec (newc f) 0%Qc).
  - apply IH; auto. intros; apply Hfs; now right. intros _. apply Hfirst. discriminate.
  - rewrite IH; auto. now rewrite <- app_assoc. intros; apply Hfs; now right. intros _. apply Hfirst. discriminate.
Qed.

Lemma results_eq :
  getResults theSetup w = Some (map (fun k => (k, newc k)) (keys given),
     filter (fun f => if Qc_eq_dec (newc f) 0%Qc then false else true) (filter (fun f => negb (topFault lmin lmax f)) faults)).
Proof.
  unfold getResults. change (sGiven theSetup) with given. change (sNewGiven theSetup) with newGiven. rewrite select_eq.
  unfold outDict. unfold keys at 1. rewrite !map_length, Nat.ltb_irrefl.
  change (sIgnored theSetup) with (ignoredFrom 0 lmin lmax). change (sInput theSetup) with faults.
  change (sRecompute theSetup) with (map rd (filter (fun f => negb (topFault lmin lmax f)) faults)).
  assert (EC : forall l : list (list Z), combine l (map newc l) = map (fun k => (k, newc k)) l) by (induction l; simpl; congruence).
  fold (keys given). rewrite EC. unfold collectRecompute. rewrite collect_eq; auto.
  - intros f Hf. apply filter_In in Hf as [Hf _]. rewrite Forall_forall in HF. auto.
  - intros NE. destruct faults as [|f r]; [exfalso; now apply NE|]. inv HF. auto.
  - unfold keys. rewrite map_map. apply map_id.
  - intros k Hk. apply In_dfind.
    + unfold keys. rewrite map_map, map_id. apply (wf_NoDup (length lmin)). apply VS.
    + now apply (in_map (fun k => (k, newc k))).
Qed.

(** A subspace between the minimum level and a level with positive coefficient. *)
Definition inScheme (t : list Z) : Prop :=
  Forall2 Z.le lmin t /\ exists a c, In (a, c) given /\ (0 < c)%Qc /\ Forall2 Z.le t a.

Lemma inScheme_max : forall t, inScheme t -> Forall2 Z.le t lmax.
Proof.
  intros t (_ & a & c & Ha & _ & HL). pose proof VS as (_ & _ & _ & _ & B & _). rewrite Forall_forall in B.
  apply (in_map fst) in Ha. eapply Forall2_le_trans; [exact HL|]. now apply B.
Qed.

Lemma inScheme_K : forall t, inScheme t -> In (rd t) K.
Proof.
  intros t (H1 & a & c & Ha & Hc & HL). apply K_In. split; [now apply erase_F2|]. exists (rd a), c.
  split; [unfold newGiven; apply in_map_iff; exists (a, c); auto|]. split; auto. now apply erase_F2.
Qed.

(** The total coefficient of the grids containing a subspace is the variable of the subspace, if no coefficient is dropped. *)
Lemma counted_eq : forall t, inScheme t -> (forall a, In a K -> ~ In a (keys newGiven) -> coef K (val K w) a = 0%Qc) ->
  qsum (map (fun k => if vgeb k t then newc k else 0%Qc) (keys given)) = val K w (rd t).
Proof.
  intros t Ht HD. pose proof setup_wf as (HN & HL & HS & Hlow & Hcl & _). fold K in HL, HS, Hlow, Hcl.
  rewrite <- (moebius (length (rd lmin)) (rd lmin) K HN HL HS Hlow Hcl (val K w) (rd t) (inScheme_K t Ht)).
  assert (Lt : length t = length m) by (rewrite v_mask; destruct Ht as [Ht _]; apply Forall2_length in Ht; auto).
  transitivity (qsum (map (fun a => if vgeb a (rd t) then coef K (val K w) a else 0%Qc) (keys newGiven))).
  - rewrite newGiven_keys, map_map. apply qs_ext. intros k Hk. unfold newc.
    assert (E : vgeb k t = vgeb (rd k) (rd t)); [|now rewrite E].
    apply eq_true_iff_eq. pose proof (v_key_len k Hk) as Lk.
    rewrite !vgeb_spec; [|unfold rd, red; rewrite !eraseDummies_length by auto; auto|congruence].
    apply rd_le; auto; [|now apply v_key_sel]. apply v_sel; [apply Ht|now apply inScheme_max].
  - symmetry. rewrite <- (CombiStepProofs.qsum_filter _ (fun a => if in_dec (list_eq_dec Z.eq_dec) a (keys newGiven) then true else false)).
    + apply qs_perm, Permutation_map. apply NoDup_Permutation.
      * apply NoDup_filter. now apply lexsorted_NoDup.
      * apply (wf_NoDup _ _ newGiven_wf).
      * intros a. rewrite filter_In. destruct (in_dec (list_eq_dec Z.eq_dec) a (keys newGiven)) as [I|I]; [|intuition discriminate].
        split; [tauto|]. intros _. split; auto. rewrite newGiven_keys in I. apply in_map_iff in I as (k & <- & Hk). now apply key_in_K.
    + intros a Ha H. destruct (in_dec (list_eq_dec Z.eq_dec) a (keys newGiven)); [discriminate|]. rewrite (HD a Ha n).
      now destruct (vgeb a (rd t)).
Qed.
End Lift.
