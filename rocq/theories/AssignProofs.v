(** Proofs about the division of schemes. *)
From Coq Require Import QArith Qround Lqa.
From Verif Require Import Base LevelSetsModel LevelSetsProofs CombiSchemeModel DofProofs CombiSchemeProofs AssignModel.
Open Scope Z_scope.

(** * Rounding *)

Lemma roundQ_mono : forall a b, (a <= b)%Q -> roundQ a <= roundQ b.
Proof. intros a b H. unfold roundQ. apply Qfloor_resp_le. lra. Qed.

Lemma roundQ_unique : forall q n, (inject_Z n - (1 # 2) <= q)%Q -> (q < inject_Z n + (1 # 2))%Q -> roundQ q = n.
Proof.
  intros q n H1 H2. unfold roundQ.
  assert (A : n <= Qfloor (q + (1 # 2))).
  { rewrite <- (Qfloor_Z n) at 1. apply Qfloor_resp_le. lra. }
  assert (B : Qfloor (q + (1 # 2)) < n + 1); [|lia].
  apply Z.lt_nge. intros C.
  pose proof (Qfloor_le (q + (1 # 2))) as D. assert (E : (inject_Z (n + 1) <= inject_Z (Qfloor (q + (1 # 2))))%Q) by (now rewrite <- Zle_Qle).
  rewrite inject_Z_plus in E. change (inject_Z 1) with 1%Q in E. lra.
Qed.

Lemma slice_ok : forall (A : Type) (l : list A) b e, 0 <= b -> b <= e -> e <= Z.of_nat (length l) ->
  slice l b e = Some (firstn (Z.to_nat (e - b)) (skipn (Z.to_nat b) l)).
Proof.
  intros. unfold slice. destruct (Z.leb_spec 0 b); [|lia]. destruct (Z.leb_spec b e); [|lia].
  destruct (Z.leb_spec e (Z.of_nat (length l))); [|lia]. reflexivity.
Qed.

Lemma slice_join : forall (A : Type) (l : list A) b e, 0 <= b -> b <= e ->
  firstn (Z.to_nat (e - b)) (skipn (Z.to_nat b) l) ++ skipn (Z.to_nat e) l = skipn (Z.to_nat b) l.
Proof.
  intros A l b e H1 H2. rewrite <- (firstn_skipn (Z.to_nat (e - b)) (skipn (Z.to_nat b) l)) at 2. f_equal.
  replace (Z.to_nat e) with (Z.to_nat b + Z.to_nat (e - b))%nat by lia.
  generalize (Z.to_nat b) as p. generalize (Z.to_nat (e - b)) as q. clear. intros q p. revert l.
  induction p as [|p IH]; intros l; [reflexivity|]. destruct l; [cbn [skipn Nat.add]; now rewrite !skipn_nil|]. cbn [skipn Nat.add]. apply IH.
Qed.

Definition qsum (l : list Q) : Q := fold_right Qplus 0%Q l.

Lemma qsum_nonneg : forall l, Forall (fun f => 0 <= f)%Q l -> (0 <= qsum l)%Q.
Proof.
  induction 1 as [|x l H F IH]; unfold qsum in *; cbn [fold_right]; [apply Qle_refl|].
  cbv beta in H. lra.
Qed.

Lemma decomposeLoop_spec : forall levels coeffs fr scanned b,
  length levels = length coeffs -> Forall (fun f => 0 <= f)%Q fr ->
  (0 <= scanned)%Q -> b = roundQ (inject_Z (Z.of_nat (length levels)) * scanned) -> 0 <= b ->
  roundQ (inject_Z (Z.of_nat (length levels)) * (scanned + qsum fr)) = Z.of_nat (length levels) ->
  exists parts, decomposeLoop levels coeffs fr scanned b = Some parts /\ length parts = length fr /\
    concat (map fst parts) = skipn (Z.to_nat b) levels /\ concat (map snd parts) = skipn (Z.to_nat b) coeffs /\
    Forall (fun p => length (fst p) = length (snd p)) parts.
Proof.
  intros levels coeffs fr. induction fr as [|f fr IH]; intros scanned b L F Hs Hb H0 HR; cbn [decomposeLoop qsum fold_right] in *.
  - exists []. split; auto. split; auto. cbn [map concat].
    assert (E : b = Z.of_nat (length levels)).
    { rewrite Hb. etransitivity; [|exact HR]. unfold roundQ. apply Qfloor_comp. ring. }
    rewrite !skipn_all2 by lia. auto.
  - inv F. set (n := Z.of_nat (length levels)) in *.
    assert (Hn : (0 <= inject_Z n)%Q) by (change 0%Q with (inject_Z 0); rewrite <- Zle_Qle; lia).
    set (e := roundQ (inject_Z n * (scanned + f))).
    assert (Hq : (0 <= qsum fr)%Q) by (now apply qsum_nonneg).
    change (fold_right Qplus 0%Q fr) with (qsum fr) in HR.
    assert (B1 : roundQ (inject_Z n * scanned) <= e).
    { unfold e. apply roundQ_mono. nra. }
    assert (B2 : e <= n).
    { transitivity (roundQ (inject_Z n * (scanned + (f + qsum fr)))); [|rewrite HR; lia]. unfold e. apply roundQ_mono. nra. }
    rewrite !slice_ok by lia.
    assert (ES : roundQ (inject_Z n * (scanned + f + qsum fr)) = n).
    { etransitivity; [|exact HR]. unfold roundQ. apply Qfloor_comp. ring. }
    destruct (IH (scanned + f)%Q e L H3 ltac:(lra) eq_refl ltac:(lia) ES) as (parts & E & Lp & C1 & C2 & FF).
    rewrite E. eexists. split; [reflexivity|]. split; [cbn [length]; lia|]. cbn [map concat fst snd]. rewrite C1, C2.
    split; [|split].
    + apply slice_join; lia.
    + apply slice_join; lia.
    + constructor; auto. cbn [fst snd]. rewrite !firstn_length, !skipn_length. lia.
Qed.

(** * Task lists *)

Lemma roundRobinLoop_In : forall fuel t total g x, (0 < g)%nat -> (total <= t + fuel)%nat ->
  (In x (roundRobinLoop fuel t total g) <-> (x < total)%nat /\ exists k, x = (t + k * g)%nat).
Proof.
  induction fuel as [|fuel IH]; intros t total g x Hg Hf; cbn [roundRobinLoop].
  - split; [intros []|]. intros [H [k E]]. nia.
  - destruct (Nat.ltb_spec t total) as [H|H].
    + cbn [In]. rewrite IH by lia. split.
      * intros [<-|[H1 [k E]]]; [split; auto; exists 0%nat; lia|]. split; auto. exists (S k). lia.
      * intros [H1 [k E]]. destruct k as [|k]; [left; lia|]. right. split; auto. exists k. lia.
    + split; [intros []|]. intros [H1 [k E]]. nia.
Qed.

Lemma roundRobinLoop_NoDup : forall fuel t total g, (0 < g)%nat -> NoDup (roundRobinLoop fuel t total g).
Proof.
  intros fuel t total g Hg. assert (G : forall fuel t, NoDup (roundRobinLoop fuel t total g) /\
    forall x, In x (roundRobinLoop fuel t total g) -> (t <= x)%nat).
  { clear fuel t. induction fuel as [|fuel IH]; intros t; cbn [roundRobinLoop].
    - split; [constructor|]. intros x [].
    - destruct (t <? total)%nat.
      + destruct (IH (t + g)%nat) as [I1 I2]. split.
        * constructor; auto. intros C. apply I2 in C. lia.
        * intros x [<-|Hx]; [lia|]. apply I2 in Hx. lia.
      + split; [constructor|]. intros x []. }
  apply G.
Qed.

Lemma flat_map_nat_perm : forall (f : nat -> list nat) groups all,
  NoDup groups -> NoDup all -> (forall g, In g groups -> NoDup (f g)) ->
  (forall x, In x all <-> exists g, In g groups /\ In x (f g)) ->
  (forall g h x, In g groups -> In h groups -> In x (f g) -> In x (f h) -> g = h) ->
  Permutation (flat_map f groups) all.
Proof.
  intros f groups all N1 N2 N3 HI HU. apply NoDup_Permutation; auto.
  - clear HI N2. induction N1 as [|g gs Hg N1 IH]; cbn [flat_map]; [constructor|].
    apply NoDup_app_intro.
    + apply N3. simpl; auto.
    + apply IH; [intros; apply N3; simpl; auto|]. intros a b x Ha Hb. apply HU; simpl; auto.
    + intros x Hx Hy. apply in_flat_map in Hy as [h [Hh Hy]]. assert (g = h) by (eapply HU; simpl; eauto). congruence.
  - intros x. rewrite in_flat_map, HI. split; intros [g [H1 H2]]; exists g; auto.
Qed.

Lemma pickTasks_flat : forall levels coeffs (f : nat -> list nat) gs,
  flat_map (fun g => pickTasks levels coeffs (f g)) gs = pickTasks levels coeffs (flat_map f gs).
Proof.
  intros. unfold pickTasks. induction gs; cbn [flat_map map]; auto. now rewrite map_app, IHgs.
Qed.

(** All tasks in order, each with its own coefficient and level. *)
Lemma pickTasks_perm : forall levels coeffs ts, length levels = length coeffs ->
  Permutation ts (seq 0 (length levels)) ->
  Permutation (pickTasks levels coeffs ts) (combine (combine (seq 0 (length levels)) coeffs) levels).
Proof.
  intros levels coeffs ts L P. unfold pickTasks. eapply Permutation_trans; [apply Permutation_map; exact P|].
  assert (E : map (fun t => (t, nth t coeffs 0, nth t levels [])) (seq 0 (length levels))
    = combine (combine (seq 0 (length levels)) coeffs) levels); [|rewrite E; apply Permutation_refl].
  assert (G : forall (l : list (list Z)) (c : list Z) (cp : list Z) (lp : list (list Z)), length l = length c -> length cp = length lp ->
    map (fun t => (t, nth t (cp ++ c) 0, nth t (lp ++ l) [])) (seq (length cp) (length l))
    = combine (combine (seq (length cp) (length l)) c) l).
  { clear. induction l as [|x l IH]; intros [|y c] cp lp L1 L2; simpl in L1; try lia; [reflexivity|].
    cbn [length seq map combine]. f_equal.
    - rewrite app_nth2 by lia. rewrite app_nth2 by lia. rewrite L2, !Nat.sub_diag. reflexivity.
    - specialize (IH c (cp ++ [y]) (lp ++ [x]) ltac:(lia) ltac:(rewrite !app_length; simpl; lia)).
      rewrite app_length in IH. cbn [length] in IH. replace (length cp + 1)%nat with (S (length cp)) in IH by lia.
      rewrite <- IH. apply map_ext. intros t. now rewrite <- !app_assoc. }
  exact (G levels coeffs [] [] L eq_refl).
Qed.

(** * Greedy balancing *)

Lemma minGroup_spec : forall loads, loads <> [] -> Forall (fun x => x < 2 ^ 63 - 1) loads ->
  (minGroup loads < length loads)%nat /\ forall x, In x loads -> nth (minGroup loads) loads 0 <= x.
Proof.
  intros loads Hne F. unfold minGroup.
  assert (G : forall rest pre best m, Forall (fun x => x < 2 ^ 63 - 1) rest ->
    (best < length pre)%nat -> nth best pre 0 = m -> (forall x, In x pre -> m <= x) ->
    let r := minGroupLoop rest (length pre) best m in
    (r < length (pre ++ rest))%nat /\ forall x, In x (pre ++ rest) -> nth r (pre ++ rest) 0 <= x).
  { induction rest as [|x rest IH]; intros pre best m Fr Hb Hm HM; cbn [minGroupLoop]; cbv zeta.
    - rewrite app_nil_r. rewrite Hm. auto.
    - inv Fr. replace (pre ++ x :: rest) with ((pre ++ [x]) ++ rest) by (now rewrite <- app_assoc).
      replace (S (length pre)) with (length (pre ++ [x])) by (rewrite app_length; simpl; lia).
      destruct (Z.ltb_spec x (nth best pre 0)).
      + apply IH; auto.
        * rewrite app_length. simpl. lia.
        * rewrite app_nth2 by lia. rewrite Nat.sub_diag. reflexivity.
        * intros y Hy. apply in_app_or in Hy as [Hy|[->|[]]]; [|lia]. specialize (HM y Hy). lia.
      + apply IH; auto.
        * rewrite app_length. simpl. lia.
        * rewrite app_nth1 by lia. reflexivity.
        * intros y Hy. apply in_app_or in Hy as [Hy|[->|[]]]; [|lia]. specialize (HM y Hy). lia. }
  destruct loads as [|x loads]; [congruence|]. inv F. cbn [minGroupLoop].
  destruct (Z.ltb_spec x (2 ^ 63 - 1)); [|lia].
  apply (G loads [x] 0%nat x); auto. intros y [->|[]]. lia.
Qed.

(** The groups named are existing ones and each task is named once, in order. *)
Lemma balanceLoop_tasks : forall cost ids loads a l, balanceLoop cost ids loads = (a, l) -> map fst a = ids.
Proof.
  induction ids as [|t ids IH]; intros loads a l E; cbn [balanceLoop] in E; [inv E; reflexivity|].
  destruct (balanceLoop cost ids _) as [a' l'] eqn:E'. inv E. cbn [map fst]. f_equal. eapply IH; eauto.
Qed.

Lemma minGroupLoop_lt : forall loads pos best m, (best < pos)%nat -> (minGroupLoop loads pos best m < pos + length loads)%nat.
Proof.
  induction loads as [|x r IH]; intros pos best m H; cbn [minGroupLoop length]; [lia|].
  destruct (x <? m); [specialize (IH (S pos) pos x)|specialize (IH (S pos) best m)]; lia.
Qed.

Lemma minGroup_lt : forall loads, loads <> [] -> (minGroup loads < length loads)%nat.
Proof.
  intros [|x loads] H; [congruence|]. unfold minGroup. cbn [minGroupLoop length].
  destruct (x <? 2 ^ 63 - 1).
  - pose proof (minGroupLoop_lt loads 1 0 x). lia.
  - pose proof (minGroupLoop_lt loads 1 0 (2 ^ 63 - 1)). lia.
Qed.

Lemma balanceLoop_groups : forall cost ids loads a l, loads <> [] -> balanceLoop cost ids loads = (a, l) ->
  Forall (fun p => snd p < length loads)%nat a /\ length l = length loads.
Proof.
  induction ids as [|t ids IH]; intros loads a l Hne E; cbn [balanceLoop] in E; [inv E; auto|].
  destruct (balanceLoop cost ids _) as [a' l'] eqn:E'. inv E.
  pose proof (minGroup_lt loads Hne) as HL. eapply IH in E'.
  - rewrite upd_length in E'. destruct E' as [F L]. split; auto.
  - intros C. apply (f_equal (@length Z)) in C. rewrite upd_length in C. destruct loads; simpl in *; [congruence|lia].
Qed.

(** The final load of a group is the initial load plus the cost of the tasks given to it. *)
Lemma balanceLoop_loads : forall cost ids loads a l, loads <> [] -> balanceLoop cost ids loads = (a, l) ->
  forall g, (g < length loads)%nat ->
  nth g l 0 = nth g loads 0 + zsum (map (fun p => cost (fst p)) (filter (fun p => Nat.eqb (snd p) g) a)).
Proof.
  induction ids as [|t ids IH]; intros loads a l Hne E g Hg; cbn [balanceLoop] in E.
  - inv E. cbn [filter map]. rewrite zsum_nil. lia.
  - destruct (balanceLoop cost ids _) as [a' l'] eqn:E'. inv E. pose proof (minGroup_lt loads Hne) as HL.
    assert (Hne' : upd loads (minGroup loads) (nth (minGroup loads) loads 0 + cost t) <> []).
    { intros C. apply (f_equal (@length Z)) in C. rewrite upd_length in C. simpl in C. lia. }
    rewrite (IH _ _ _ Hne' E' g) by (rewrite upd_length; auto).
    cbn [filter snd]. destruct (Nat.eqb_spec (minGroup loads) g) as [<-|NE].
    + rewrite nth_upd_same by auto. cbn [map fst]. rewrite zsum_cons. lia.
    + rewrite nth_upd_other by auto. reflexivity.
Qed.

Definition spread (m : Z) (loads : list Z) : Prop := forall x y, In x loads -> In y loads -> x - y <= m.

Lemma In_upd : forall (l : list Z) i v x, In x (upd l i v) -> x = v \/ In x l.
Proof.
  induction l as [|y l IH]; intros [|i] v x H; cbn [upd] in H; simpl in *; auto.
  - destruct H as [<-|H]; auto.
  - destruct H as [<-|H]; auto. apply IH in H as [H|H]; auto.
Qed.

Lemma balanceLoop_spread : forall cost M ids loads a l, loads <> [] -> balanceLoop cost ids loads = (a, l) ->
  Forall (fun t => 0 <= cost t <= M) ids -> (forall x, In x loads -> 0 <= x) ->
  zsum (map cost ids) + zsum loads < 2 ^ 63 - 1 -> spread M loads -> spread M l.
Proof.
  intros cost M. induction ids as [|t ids IH]; intros loads a l Hne E F P B S; cbn [balanceLoop] in E; [inv E; auto|].
  destruct (balanceLoop cost ids _) as [a' l'] eqn:E'. inv E. inv F. pose proof (minGroup_lt loads Hne) as HL.
  cbn [map] in B. rewrite zsum_cons in B.
  assert (NN : forall l : list nat, Forall (fun t => 0 <= cost t <= M) l -> 0 <= zsum (map cost l)).
  { induction 1; cbn [map]; rewrite ?zsum_nil, ?zsum_cons; lia. }
  pose proof (NN ids H2) as Hids.
  assert (F63 : Forall (fun x => x < 2 ^ 63 - 1) loads).
  { apply Forall_forall. intros x Hx. assert (x <= zsum loads); [|lia]. clear -P Hx. induction loads as [|y r IH]; [contradiction|].
    assert (0 <= zsum r).
    { clear -P. assert (P' : forall x, In x r -> 0 <= x) by (intros; apply P; simpl; auto). clear P. induction r; rewrite ?zsum_nil, ?zsum_cons; [lia|].
      specialize (IHr ltac:(intros; apply P'; simpl; auto)). specialize (P' a ltac:(simpl; auto)). lia. }
    rewrite zsum_cons. destruct Hx as [->|Hx]; [lia|]. specialize (IH ltac:(intros; apply P; simpl; auto) Hx). specialize (P y ltac:(simpl; auto)). lia. }
  destruct (minGroup_spec loads Hne F63) as [_ HM].
  assert (Hne' : upd loads (minGroup loads) (nth (minGroup loads) loads 0 + cost t) <> []).
  { intros C. apply (f_equal (@length Z)) in C. rewrite upd_length in C. simpl in C. lia. }
  refine (IH _ _ _ Hne' E' ltac:(assumption) _ _ _).
  - intros x Hx. apply In_upd in Hx as [->|Hx]; auto. specialize (P (nth (minGroup loads) loads 0) ltac:(apply nth_In; auto)). lia.
  - rewrite zsum_upd by auto. lia.
  - intros x y Hx Hy. apply In_upd in Hx. apply In_upd in Hy.
    assert (I : In (nth (minGroup loads) loads 0) loads) by (apply nth_In; auto).
    destruct Hx as [->|Hx], Hy as [->|Hy].
    + lia.
    + specialize (HM y Hy). lia.
    + specialize (S x _ Hx I). lia.
    + apply S; auto.
Qed.

(** * Conjoint set *)

Lemma found_spec : forall v l, found v l = true <-> In v l.
Proof. intros. unfold found. destruct (in_dec _ v l); split; auto; discriminate. Qed.

Lemma addDown_inner : forall ws s, NoDup s ->
  let r := fold_left (fun s w => if found w s then s else s ++ [w]) ws s in
  NoDup r /\ forall x, In x r <-> In x s \/ In x ws.
Proof.
  induction ws as [|w ws IH]; intros s N; cbn [fold_left]; cbv zeta.
  - split; auto. intros. simpl. tauto.
  - destruct (found w s) eqn:E.
    + apply found_spec in E. destruct (IH s N) as [I1 I2]. split; auto. intros x. rewrite I2. simpl. intuition congruence.
    + assert (Nw : ~ In w s) by (intros C; apply found_spec in C; congruence).
      destruct (IH (s ++ [w])) as [I1 I2].
      * apply NoDup_app_intro; auto; [repeat constructor; auto|]. intros x Hx [->|[]]. auto.
      * split; auto. intros x. rewrite I2, in_app_iff. simpl. intuition congruence.
Qed.

Lemma countInsert_keys : forall dim v m, length v = dim -> Forall (fun p => length (fst p) = dim) m ->
  map fst (countInsert v m) = setInsert v (map fst m).
Proof.
  intros dim v m Lv F. induction F as [|[w c] m Lw F IH]; cbn [countInsert map fst setInsert]; auto.
  cbn [fst] in Lw. destruct (lexltb v w) eqn:E1; [reflexivity|]. destruct (lexltb w v) eqn:E2; cbn [map fst]; [now rewrite IH|].
  reflexivity.
Qed.

Definition wfMap (dim : nat) (m : list (list Z * Z)) : Prop :=
  Forall (fun p => length (fst p) = dim) m /\ StronglySorted lexlt (map fst m).

Lemma countInsert_wf : forall dim v m, length v = dim -> wfMap dim m -> wfMap dim (countInsert v m).
Proof.
  intros dim v m Lv [F S]. assert (FK : Forall (fun w => length w = dim) (map fst m)).
  { apply Forall_forall. intros w Hw. apply in_map_iff in Hw as [p [<- Hp]]. rewrite Forall_forall in F. auto. }
  assert (SI : Forall (fun w => length w = dim) (map fst (countInsert v m))).
  { rewrite (countInsert_keys dim) by auto. apply Forall_forall. intros w Hw. apply (setInsert_In dim) in Hw; auto.
    rewrite Forall_forall in FK. destruct Hw as [->|Hw]; auto. }
  split.
  - apply Forall_forall. intros p Hp. rewrite Forall_forall in SI. apply SI. now apply in_map.
  - rewrite (countInsert_keys dim) by auto. eapply setInsert_sorted; eauto.
Qed.

Lemma poleCounts_wf : forall dim spaces coeffs lmin, Forall (fun s => length s = dim) spaces ->
  wfMap dim (poleCounts spaces coeffs lmin).
Proof.
  intros dim spaces coeffs lmin F. unfold poleCounts.
  assert (G : forall ps m, Forall (fun p : list Z * Z => length (fst p) = dim) ps -> wfMap dim m ->
    wfMap dim (fold_left (fun m p => if snd p =? 1 then fold_left (fun m v => countInsert v m) (polesBelow lmin (fst p)) m else m) ps m)).
  { induction ps as [|[s c] ps IH]; intros m Fp W; cbn [fold_left]; auto. inv Fp. apply IH; auto. cbn [fst snd] in *.
    destruct (c =? 1); auto.
    assert (FP : Forall (fun w => length w = length s) (polesBelow lmin s)).
    { apply Forall_forall. intros w Hw. unfold polesBelow in Hw. apply in_flat_map in Hw as [d [_ Hw]].
      apply in_map_iff in Hw as [x [<- _]]. apply upd_length. }
    clear -FP W. revert m W. induction FP; intros m W; cbn [fold_left]; auto. apply IHFP. now apply countInsert_wf. }
  apply G.
  - apply Forall_forall. intros [s c] Hp. apply in_combine_l in Hp. rewrite Forall_forall in F. auto.
  - split; constructor.
Qed.

(** Everything in the list so far is lexicographically below the next key. *)
Lemma conjoint_spec : forall dim thr m s, wfMap dim m -> NoDup s ->
  (forall x p, In x s -> In p m -> lexlt x (fst p)) ->
  let r := fold_left (fun s p => if snd p <? thr then addDownSpaces s (fst p) else s) m s in
  NoDup r /\ forall x, In x r <-> In x s \/ exists p, In p m /\ snd p < thr /\ (x = fst p \/ Forall2 (fun a b => 1 <= a <= b) x (fst p)).
Proof.
  intros dim thr m. induction m as [|[v c] m IH]; intros s [F S] N H; cbn [fold_left]; cbv zeta.
  - split; auto. intros x. split; auto. intros [|[p [[] _]]]; auto.
  - inv F. cbn [map fst] in S. apply StronglySorted_inv in S as [S1 S2]. rewrite Forall_forall in S2. cbn [fst snd] in *.
    destruct (Z.ltb_spec c thr) as [Hc|Hc].
    + assert (Nv : ~ In v s) by (intros C; apply (H v (v, c)) in C; [now apply lexlt_irrefl in C|simpl; auto]).
      assert (N1 : NoDup (s ++ [v])).
      { apply NoDup_app_intro; auto; [repeat constructor; auto|]. intros x Hx [->|[]]. auto. }
      destruct (addDown_inner (getDownSet v) (s ++ [v]) N1) as [A1 A2]. cbv zeta in A1, A2. fold (addDownSpaces s v) in A1, A2.
      assert (A3 : forall x, In x (addDownSpaces s v) <-> In x s \/ x = v \/ Forall2 (fun a b => 1 <= a <= b) x v).
      { intros x. rewrite A2, in_app_iff. cbn [In].
        assert (DE : In x (getDownSet v) <-> Forall2 (fun a b => 1 <= a <= b) x v).
        { rewrite getDownSet_In. split; intros HF; clear -HF; induction HF; constructor; auto. }
        rewrite DE. intuition congruence. }
      destruct (IH (addDownSpaces s v)) as [I1 I2]; [split; auto|auto| |].
      * intros x p Hx Hp. assert (LV : lexlt v (fst p)) by (apply S2, in_map; auto). apply A3 in Hx as [Hx|[->|Hx]].
        -- apply H; simpl; auto.
        -- auto.
        -- assert (HF : Forall2 Z.le x v) by (clear -Hx; induction Hx; constructor; auto; lia).
           destruct (dominated_lex x v HF) as [->|HL]; auto. eapply lexlt_trans; eauto.
      * split; auto. intros x. rewrite I2, A3. split.
        -- intros [[Hx|Hx]|[p [Hp Hr]]]; [auto|right; exists (v, c); simpl; auto|right; exists p; simpl; auto].
        -- intros [Hx|[p [[<-|Hp] [Hr Hx]]]]; [auto|auto|right; exists p; auto].
    + destruct (IH s) as [I1 I2]; [split; auto|auto| |].
      * intros x p Hx Hp. apply H; simpl; auto.
      * split; auto. intros x. rewrite I2. split.
        -- intros [Hx|[p [Hp Hr]]]; [auto|right; exists p; simpl; auto].
        -- intros [Hx|[p [[<-|Hp] [Hr Hx]]]]; [auto|cbn [snd] in Hr; lia|right; exists p; auto].
Qed.

Definition vcount (v : list Z) (l : list (list Z)) : Z := Z.of_nat (count_occ (list_eq_dec Z.eq_dec) l v).

Lemma countInsert_In : forall dim v m w c, length v = dim -> wfMap dim m ->
  (In (w, c) (countInsert v m) <->
   (w <> v /\ In (w, c) m) \/ (w = v /\ (In (v, c - 1) m \/ (c = 1 /\ ~ In v (map fst m))))).
Proof.
  intros dim v m w c Lv [F S]. induction m as [|[u k] m IH]; cbn [countInsert].
  - simpl. split.
    + intros [E|[]]. inv E. intuition.
    + intros [[_ []]|[-> [[]|[-> _]]]]. simpl; auto.
  - inv F. cbn [map fst] in *. apply StronglySorted_inv in S as [S1 S2]. rewrite Forall_forall in S2.
    destruct (lexltb v u) eqn:E1.
    + apply lexltb_spec in E1; [|congruence].
      assert (Nv : ~ In v (u :: map fst m)).
      { intros [->|C]; [now apply lexlt_irrefl in E1|]. apply S2 in C. apply (lexlt_irrefl v). eapply lexlt_trans; eauto. }
      cbn [In]. split.
      * intros [E|[E|E]].
        -- inv E. right. split; auto.
        -- inv E. left. split; auto. intros ->. apply Nv. simpl; auto.
        -- left. split; auto. intros ->. apply Nv. right. apply in_map_iff. exists (v, c). auto.
      * intros [[_ H]|[-> [H|[-> _]]]]; auto. exfalso. apply Nv. destruct H as [E|H].
        -- inv E. simpl; auto.
        -- right. apply in_map_iff. exists (v, c - 1). auto.
    + destruct (lexltb u v) eqn:E2.
      * apply lexltb_spec in E2; [|congruence]. cbn [In]. rewrite IH by auto. split.
        -- intros [E|[[G1 G2]|[-> H]]].
           ++ inv E. left. split; auto. intros ->. now apply lexlt_irrefl in E2.
           ++ left. auto.
           ++ right. split; auto. destruct H as [H|[-> H]]; auto. right. split; auto. intros [->|C]; auto. now apply lexlt_irrefl in E2.
        -- intros [[G1 [E|H]]|[-> [[E|H]|[-> H]]]].
           ++ auto.
           ++ right. left. auto.
           ++ inv E. now apply lexlt_irrefl in E2.
           ++ right. right. auto.
           ++ right. right. split; auto. right. split; auto.
      * assert (EQ : v = u).
        { destruct (lexlt_total v u ltac:(congruence)) as [|[H|H]]; auto; apply lexltb_spec in H; congruence. }
        subst u. assert (Nv : ~ In v (map fst m)) by (intros C; apply S2 in C; now apply lexlt_irrefl in C).
        cbn [In]. split.
        -- intros [E|H].
           ++ inv E. right. split; auto. left. left. f_equal. lia.
           ++ left. split; auto. intros ->. apply Nv. apply in_map_iff. exists (v, c). auto.
        -- intros [[G1 [E|H]]|[-> [[E|H]|[-> H]]]].
           ++ inv E. congruence.
           ++ auto.
           ++ inv E. left. f_equal. lia.
           ++ exfalso. apply Nv. apply in_map_iff. exists (v, c - 1). auto.
           ++ exfalso. apply H. auto.
Qed.

Definition countsOf (m : list (list Z * Z)) (l : list (list Z)) : Prop :=
  forall w c, In (w, c) m <-> In w l /\ c = vcount w l.

Lemma countInsert_counts : forall dim v m l, length v = dim -> wfMap dim m -> countsOf m l ->
  countsOf (countInsert v m) (l ++ [v]).
Proof.
  intros dim v m l Lv W C w c. rewrite (countInsert_In dim) by auto. unfold vcount. rewrite count_occ_app, in_app_iff.
  cbn [count_occ In]. destruct (list_eq_dec Z.eq_dec v w) as [->|NE].
  - split.
    + intros [[H _]|[_ [H|[-> H]]]]; [congruence| |].
      * apply C in H as [H E]. unfold vcount in E. split; [auto|lia].
      * split; [simpl; auto|]. assert (NI : ~ In w l).
        { intros HI. apply H. apply in_map_iff. exists (w, vcount w l). split; auto. apply C. auto. }
        rewrite (proj1 (count_occ_not_In _ _ _) NI). reflexivity.
    + intros [_ E]. right. split; auto. destruct (in_dec (list_eq_dec Z.eq_dec) w l) as [I|I].
      * left. apply C. split; auto. unfold vcount. lia.
      * right. rewrite (proj1 (count_occ_not_In _ _ _) I) in E. split; [lia|]. intros HI. apply in_map_iff in HI as [[w' c'] [E' HI]].
        cbn [fst] in E'. subst w'. apply C in HI. tauto.
  - rewrite Nat.add_0_r. split.
    + intros [[_ H]|[-> _]]; [|congruence]. apply C in H as [H E]. unfold vcount in E. auto.
    + intros [[H|[H|[]]] E]; [|congruence]. left. split; auto. apply C. auto.
Qed.

(** All pole elements below the active front, as generated. *)
Definition frontPoles (spaces : list (list Z)) (coeffs : list Z) (lmin : list Z) : list (list Z) :=
  flat_map (fun p => if snd p =? 1 then polesBelow lmin (fst p) else []) (combine spaces coeffs).

Lemma poleCounts_counts : forall dim spaces coeffs lmin, Forall (fun s => length s = dim) spaces ->
  countsOf (poleCounts spaces coeffs lmin) (frontPoles spaces coeffs lmin).
Proof.
  intros dim spaces coeffs lmin F. unfold poleCounts, frontPoles.
  assert (G : forall ps m l, Forall (fun p : list Z * Z => length (fst p) = dim) ps -> wfMap dim m -> countsOf m l ->
    countsOf (fold_left (fun m p => if snd p =? 1 then fold_left (fun m v => countInsert v m) (polesBelow lmin (fst p)) m else m) ps m)
      (l ++ flat_map (fun p => if snd p =? 1 then polesBelow lmin (fst p) else []) ps)).
  { induction ps as [|[s c] ps IH]; intros m l Fp W C; cbn [fold_left flat_map]; [now rewrite app_nil_r|]. inv Fp. cbn [fst snd] in *.
    assert (FP : Forall (fun w => length w = length s) (polesBelow lmin s)).
    { apply Forall_forall. intros w Hw. unfold polesBelow in Hw. apply in_flat_map in Hw as [d [_ Hw]].
      apply in_map_iff in Hw as [x [<- _]]. apply upd_length. }
    rewrite app_assoc. destruct (c =? 1); [|rewrite app_nil_r; apply IH; auto].
    assert (IN : forall ws m l, Forall (fun w => length w = length s) ws -> wfMap (length s) m -> countsOf m l ->
      wfMap (length s) (fold_left (fun m v => countInsert v m) ws m) /\ countsOf (fold_left (fun m v => countInsert v m) ws m) (l ++ ws)).
    { clear. induction ws as [|w ws IH]; intros m l F W C; cbn [fold_left]; [rewrite app_nil_r; auto|]. inv F.
      replace (l ++ w :: ws) with ((l ++ [w]) ++ ws) by (now rewrite <- app_assoc).
      apply IH; auto; [now apply countInsert_wf|]. eapply countInsert_counts; eauto. }
    destruct (IN _ m l FP W C) as [W' C']. apply IH; auto. }
  apply (G _ [] []).
  - apply Forall_forall. intros [s c] Hp. apply in_combine_l in Hp. rewrite Forall_forall in F. auto.
  - split; constructor.
  - intros w c. simpl. tauto.
Qed.
