(** C126: the files of the processes of a distributed sparse grid. *)
From Verif Require Import Base NetModel NetProps ChunkFileModel.
Open Scope Z_scope.

(** The last character of the prefix is not a digit ('0' to '9' are 48 to 57). *)
Definition endsInNonDigit (p : list Z) : Prop := exists q c, p = q ++ [c] /\ ~ (48 <= c <= 57).

Lemma run_of_digits : forall (d1 d2 : list Z) c1 c2 t1 t2, Forall digit d1 -> Forall digit d2 -> ~ digit c1 -> ~ digit c2 ->
  d1 ++ c1 :: t1 = d2 ++ c2 :: t2 -> d1 = d2 /\ c1 :: t1 = c2 :: t2.
Proof.
  induction d1 as [|x d1 IH]; intros d2 c1 c2 t1 t2 F1 F2 N1 N2 E; destruct d2 as [|y d2]; cbn in E.
  - auto.
  - injection E as -> _. inversion F2; contradiction.
  - injection E as <- _. inversion F1; contradiction.
  - injection E as <- E. inversion F1; inversion F2; subst. destruct (IH d2 c1 c2 t1 t2) as [-> ->]; auto.
Qed.

Lemma toString_inj : forall m n, 0 <= m -> 0 <= n -> toString m = toString n -> m = n.
Proof.
  intros m n Hm Hn E. destruct (toString_spec m Hm) as (_ & _ & A). destruct (toString_spec n Hn) as (_ & _ & B). congruence.
Qed.

Lemma name_inj_rank : forall p r s, chunkName p r = chunkName p s -> r = s.
Proof. intros p r s E. apply app_inv_head in E. apply toString_inj in E; lia. Qed.

Lemma name_inj : forall p q r s, endsInNonDigit p -> endsInNonDigit q -> chunkName p r = chunkName q s -> p = q /\ r = s.
Proof.
  intros p q r s (p' & c & -> & Nc) (q' & d & -> & Nd) E. unfold chunkName in E.
  destruct (toString_spec (Z.of_nat r) ltac:(lia)) as (F1 & _ & _). destruct (toString_spec (Z.of_nat s) ltac:(lia)) as (F2 & _ & _).
  assert (R := f_equal (@rev Z) E). rewrite !rev_app_distr in R. cbn in R.
  apply run_of_digits in R; [|apply Forall_rev; assumption|apply Forall_rev; assumption|exact Nc|exact Nd].
  destruct R as [R1 R2]. apply (f_equal (@rev Z)) in R1. rewrite !rev_involutive in R1. apply toString_inj in R1; try lia.
  injection R2 as -> R2. apply (f_equal (@rev Z)) in R2. rewrite !rev_involutive in R2. subst. split; [reflexivity|lia].
Qed.

(** The file written by [rank] with [p] is not the one of event [e]. *)
Definition leaves {A} (rank : nat) (p : list Z) (e : chunkEvent A) : Prop :=
  match e with EWrite r q => chunkName q r <> chunkName p rank | _ => True end.

Lemma run_keeps : forall A asserts (es : list (chunkEvent A)) s s' rank p, Forall (leaves rank p) es -> runChunks asserts es s = Some s' ->
  dFiles s' (chunkName p rank) = dFiles s (chunkName p rank).
Proof.
  intros A asserts es. induction es as [|e es IH]; intros s s' rank p F R; cbn in R; [injection R as <-; reflexivity|].
  inversion F as [|? ? L F']; subst. destruct e as [r q|r q|r v].
  - rewrite (IH _ _ _ _ F' R). cbn. unfold setFile. destruct (list_eq_dec Z.eq_dec (chunkName p rank) (chunkName q r)) as [X|X]; [|reflexivity].
    exfalso. apply L. congruence.
  - unfold readFromDiskChunked in R. destruct (dFiles s (chunkName q r)) as [v|]; [|discriminate]. cbn in R.
    destruct (asserts && negb (length v =? length (dData s r))%nat)%bool; [discriminate|]. rewrite (IH _ _ _ _ F' R). reflexivity.
  - rewrite (IH _ _ _ _ F' R). reflexivity.
Qed.

(** Whatever the processes do in between, and in whichever order, a process reads what it wrote last with the prefix if its sparse grid
    has the same size again; nothing else changes. All prefixes end in something else than a digit. *)
Theorem C126_read_back : forall A asserts (s s' : disk A) rank p es,
  endsInNonDigit p -> (forall r q, In (EWrite r q) es -> endsInNonDigit q /\ (q, r) <> (p, rank)) ->
  runChunks asserts (EWrite rank p :: es) s = Some s' -> length (dData s' rank) = length (dData s rank) ->
  exists s'', runChunks asserts [ERead rank p] s' = Some s'' /\ dData s'' rank = dData s rank /\
    (forall r, r <> rank -> dData s'' r = dData s' r) /\ (forall n, dFiles s'' n = dFiles s' n).
Proof.
  intros A asserts s s' rank p es P Q R L. cbn in R.
  assert (F : Forall (leaves rank p) es).
  { apply Forall_forall. intros [r q|r q|r v] I; cbn; auto. destruct (Q r q I) as [D N]. intros E. apply N. destruct (name_inj _ _ _ _ D P E) as [-> ->]. reflexivity. }
  pose proof (run_keeps _ _ _ _ _ _ _ F R) as K. cbn in K. unfold setFile in K.
  destruct (list_eq_dec Z.eq_dec (chunkName p rank) (chunkName p rank)) as [_|X]; [|congruence].
  cbn. unfold readFromDiskChunked. rewrite K, L, Nat.eqb_refl. rewrite andb_false_r. eexists. split; [reflexivity|]. cbn. unfold setData.
  rewrite Nat.eqb_refl. split; [|split; [|reflexivity]].
  - rewrite <- L at 2. rewrite skipn_all. rewrite firstn_all, app_nil_r. reflexivity.
  - intros r N. apply Nat.eqb_neq in N. rewrite N. reflexivity.
Qed.

(** All processes write and then all read, in any orders, as in the test: every one has its values again, whatever happened to them. *)
Theorem C126_all_ranks : forall A asserts (s : disk A) p w r v,
  NoDup w -> NoDup r -> (forall k, In k r -> In k w) -> (forall k, length (v k) = length (dData s k)) ->
  exists s', runChunks asserts (map (fun k => EWrite k p) w ++ map (fun k => EChange k (v k)) r ++ map (fun k => ERead k p) r) s = Some s' /\
    forall k, In k w -> dData s' k = dData s k /\ dFiles s' (chunkName p k) = Some (dData s k).
Proof.
  intros A asserts s p w r v Nw Nr I L.
  assert (APP : forall es1 es2 (x : disk A), runChunks asserts (es1 ++ es2) x = match runChunks asserts es1 x with None => None | Some y => runChunks asserts es2 y end).
  { induction es1 as [|[a b|a b|a b] es1 IH]; intros es2 x; cbn; auto. destruct (readFromDiskChunked asserts a b x); auto. }
  assert (W : forall l (x : disk A), exists y, runChunks asserts (map (fun k => EWrite k p) l) x = Some y /\ dData y = dData x /\
     (forall k, In k l -> dFiles y (chunkName p k) = Some (dData x k)) /\ (forall n, (forall k, In k l -> n <> chunkName p k) -> dFiles y n = dFiles x n)).
  { induction l as [|a l IH]; intros x; cbn.
    - exists x. repeat split; auto. contradiction.
    - destruct (IH (writeToDiskChunked a p x)) as (y & E & D & K & O). exists y. rewrite E. split; [reflexivity|]. rewrite D. split; [reflexivity|]. split.
      + intros k H. destruct (in_dec Nat.eq_dec k l) as [Y|N]; [rewrite (K k Y); reflexivity|]. destruct H as [<-|H]; [|contradiction].
        rewrite O. { cbn. unfold setFile. destruct (list_eq_dec Z.eq_dec (chunkName p a) (chunkName p a)); congruence. }
        intros k Ik Ek. apply name_inj_rank in Ek. subst; contradiction.
      + intros n H. rewrite O by (intros; apply H; auto). cbn. unfold setFile. destruct (list_eq_dec Z.eq_dec n (chunkName p a)) as [X|X]; [|reflexivity].
        exfalso. exact (H a (or_introl eq_refl) X). }
  assert (C : forall l (x : disk A), exists y, runChunks asserts (map (fun k => EChange k (v k)) l) x = Some y /\ dFiles y = dFiles x /\
     (forall k, dData y k = if in_dec Nat.eq_dec k l then v k else dData x k)).
  { induction l as [|a l IH]; intros x; cbn [map runChunks].
    - exists x. repeat split.
    - destruct (IH (Disk (dFiles x) (setData (dData x) a (v a)))) as (y & E & D & K). exists y. rewrite E. split; [reflexivity|]. split; [exact D|].
      intros k. rewrite K. cbn [dData]. unfold setData. destruct (in_dec Nat.eq_dec k l) as [Y|N]; destruct (in_dec Nat.eq_dec k (a :: l)) as [Y'|N'];
        destruct (Nat.eqb_spec k a) as [->|Q]; auto; exfalso;
        try (apply N'; right; exact Y); try (apply N'; left; reflexivity); destruct Y' as [Y'|Y']; [congruence|contradiction]. }
  assert (R : forall l (x : disk A), (forall k, In k l -> exists u, dFiles x (chunkName p k) = Some u /\ length u = length (dData x k)) -> NoDup l ->
     exists y, runChunks asserts (map (fun k => ERead k p) l) x = Some y /\ dFiles y = dFiles x /\
     (forall k, In k l -> Some (dData y k) = dFiles x (chunkName p k)) /\ (forall k, ~ In k l -> dData y k = dData x k)).
  { induction l as [|a l IH]; intros x H ND; cbn [map runChunks].
    - exists x. repeat split; auto. contradiction.
    - destruct (H a (or_introl eq_refl)) as (u & Eu & Lu). unfold readFromDiskChunked. rewrite Eu, Lu, Nat.eqb_refl, andb_false_r.
      inversion ND as [|? ? Na ND']; subst. rewrite (firstn_all2 u) by lia. rewrite skipn_all, app_nil_r.
      destruct (IH (Disk (dFiles x) (setData (dData x) a u))) as (y & E & D & K & O); [|exact ND'|].
      + intros k Ik. cbn. unfold setData. destruct (Nat.eqb_spec k a) as [->|N]; [contradiction|]. apply H. right; exact Ik.
      + exists y. rewrite E. split; [reflexivity|]. split; [exact D|]. split.
        * intros k [<-|Ik]; [|apply K; exact Ik]. rewrite O by exact Na. cbn. unfold setData. rewrite Nat.eqb_refl. symmetry; exact Eu.
        * intros k Nk. rewrite O by (intros X; apply Nk; right; exact X). cbn. unfold setData.
          destruct (Nat.eqb_spec k a) as [->|N]; [exfalso; apply Nk; left; reflexivity|reflexivity]. }
  destruct (W w s) as (y1 & E1 & D1 & K1 & _). destruct (C r y1) as (y2 & E2 & F2 & K2).
  destruct (R r y2) as (y3 & E3 & F3 & K3 & O3); [|exact Nr|].
  { intros k Ik. rewrite F2. exists (dData s k). split; [apply K1; auto|]. rewrite K2. destruct (in_dec Nat.eq_dec k r); [symmetry; apply L|contradiction]. }
  exists y3. rewrite APP, E1, APP, E2. split; [exact E3|]. intros k Ik. rewrite F3, F2, (K1 k Ik). split; [|reflexivity].
  destruct (in_dec Nat.eq_dec k r) as [Y|N].
  - specialize (K3 k Y). rewrite F2, (K1 k Ik) in K3. congruence.
  - rewrite O3 by exact N. rewrite K2. destruct (in_dec Nat.eq_dec k r); [contradiction|]. rewrite D1. reflexivity.
Qed.

Lemma nth_of_firstn : forall A (l : list A) n i d, (i < n)%nat -> nth i (firstn n l) d = nth i l d.
Proof.
  intros A l. induction l as [|x l IH]; intros [|n] [|i] d H; cbn; auto; try lia. apply IH. lia.
Qed.

Lemma nth_of_skipn : forall A (l : list A) n i d, nth i (skipn n l) d = nth (n + i) l d.
Proof.
  intros A l. induction l as [|x l IH]; intros [|n] i d; cbn; auto. destruct i; reflexivity.
Qed.

(** Without the condition on the last character two sparse grids with different prefixes can share a file: rank 11 with "a" and rank 1
    with "a1". And a file of another size is only noticed with assertions: a shorter one leaves old values behind without an error. *)
Theorem C126_prefix_refuted :
  ~ (forall p q r s, p <> q -> chunkName p r <> chunkName q s) /\
  (exists (s s' : disk Z), runChunks true [EWrite 11 [97]; EWrite 1 [97; 49]; ERead 11 [97]] s = Some s' /\ dData s' 11%nat <> dData s 11%nat) /\
  (forall A asserts (s : disk A) rank p v, dFiles s (chunkName p rank) = Some v -> length v <> length (dData s rank) ->
     if asserts : bool then readFromDiskChunked asserts rank p s = None
     else exists s', readFromDiskChunked asserts rank p s = Some s' /\ length (dData s' rank) = length (dData s rank) /\
       forall i d, (i < length (dData s rank))%nat -> nth i (dData s' rank) d = if (i <? length v)%nat then nth i v d else nth i (dData s rank) d).
Proof.
  split; [|split].
  - intros H. apply (H [97] [97; 49] 11%nat 1%nat); [discriminate|reflexivity].
  - exists (Disk (fun _ => None) (fun k => if Nat.eqb k 11 then [5; 6] else [7; 8])). eexists. split; [vm_compute; reflexivity|]. vm_compute. discriminate.
  - intros A asserts s rank p v E N. unfold readFromDiskChunked. rewrite E. apply Nat.eqb_neq in N. rewrite N. destruct asserts; cbn [andb negb]; [reflexivity|].
    eexists. split; [reflexivity|]. cbn [dData]. unfold setData. rewrite Nat.eqb_refl. split.
    + rewrite app_length, firstn_length, skipn_length. lia.
    + intros i d Hi. destruct (Nat.ltb_spec i (length v)) as [X|X].
      * rewrite app_nth1 by (rewrite firstn_length; lia). apply nth_of_firstn. exact Hi.
      * rewrite app_nth2 by (rewrite firstn_length; lia). rewrite firstn_length, nth_of_skipn. f_equal. lia.
Qed.

(** "sg_" with ranks 1 and 11; another prefix in between. *)
Example C126_ex : let s := Disk (fun _ => None) (fun k => [Z.of_nat k; 4]) in let p := [115; 103; 95] in
  option_map (fun s' => (dData s' 1%nat, dData s' 11%nat))
    (runChunks true [EWrite 1 p; EWrite 11 p; EChange 1 [9; 9]; EWrite 1 [98]; EChange 11 [8; 8]; ERead 11 p; ERead 1 p] s) = Some ([1; 4], [11; 4]) /\
  option_map (fun s' => dData s' 1%nat) (runChunks false [EWrite 1 p; EChange 1 [9; 9; 9]; ERead 1 p] s) = Some [1; 4; 9] /\
  runChunks true [EWrite 1 p; EChange 1 [9; 9; 9]; ERead 1 p] s = None /\ runChunks false [EWrite 1 p; ERead 2 p] s = None.
Proof. vm_compute. repeat split. Qed.

Print Assumptions C126_read_back.
Print Assumptions C126_all_ranks.
Print Assumptions C126_prefix_refuted.
