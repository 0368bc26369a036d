(** Lemmas about the recovery of the communicators. *)
From Verif Require Import Base RankModel CommRecoveryModel.
Open Scope Z_scope.
Ltac Zify.zify_post_hook ::= idtac.

(** ** Ranks *)
Lemma zlen_cons : forall x l, zlen (x :: l) = 1 + zlen l. Proof. intros. unfold zlen. cbn [length]. lia. Qed.
Lemma zlen_app : forall a b, zlen (a ++ b) = zlen a + zlen b. Proof. intros. unfold zlen. rewrite app_length. lia. Qed.
Lemma zlen_nonneg : forall l, 0 <= zlen l. Proof. intros. unfold zlen. lia. Qed.
Lemma zlen_map : forall f l, zlen (map f l) = zlen l. Proof. intros. unfold zlen. now rewrite map_length. Qed.
Lemma zlen_perm : forall a b, Permutation a b -> zlen a = zlen b.
Proof. intros a b H. unfold zlen. now rewrite (Permutation_length H). Qed.
Lemma zlen_zrange : forall b, 0 <= b -> zlen (zrange 0 b) = b. Proof. intros. unfold zlen. rewrite zrange_length. lia. Qed.

Lemma isIn_iff : forall p l, isIn p l = true <-> In p l.
Proof.
  intros p l. unfold isIn. rewrite existsb_exists. split.
  - intros (x & Hx & E). apply Z.eqb_eq in E. now subst x.
  - intros H. exists p. split; [exact H|apply Z.eqb_refl].
Qed.
Lemma isIn_false : forall p l, isIn p l = false <-> ~ In p l.
Proof. intros p l. rewrite <- isIn_iff. destruct (isIn p l); split; congruence. Qed.

Lemma pos_range : forall l p, In p l -> 0 <= pos l p < zlen l.
Proof.
  induction l as [|x l IH]; intros p H; [destruct H|]. cbn [pos]. rewrite zlen_cons. pose proof (zlen_nonneg l). destruct (x =? p) eqn:E; [lia|].
  destruct H as [H|H]; [apply Z.eqb_neq in E; congruence|]. specialize (IH p H). lia.
Qed.
Lemma at_pos : forall l p, In p l -> at_ l (pos l p) = p.
Proof.
  induction l as [|x l IH]; intros p H; [destruct H|]. cbn [pos]. destruct (x =? p) eqn:E; [apply Z.eqb_eq in E; subst x; reflexivity|].
  destruct H as [H|H]; [apply Z.eqb_neq in E; congruence|]. pose proof (pos_range l p H). unfold at_.
  replace (Z.to_nat (1 + pos l p)) with (S (Z.to_nat (pos l p))) by lia. exact (IH p H).
Qed.
Lemma at_In : forall l r, 0 <= r < zlen l -> In (at_ l r) l.
Proof. intros l r H. apply nth_In. unfold zlen in H. lia. Qed.
Lemma at_cons : forall x l r, 0 < r -> at_ (x :: l) r = at_ l (r - 1).
Proof. intros x l r H. unfold at_. replace (Z.to_nat r) with (S (Z.to_nat (r - 1))) by lia. reflexivity. Qed.
Lemma pos_at : forall l r, NoDup l -> 0 <= r < zlen l -> pos l (at_ l r) = r.
Proof.
  induction l as [|x l IH]; intros r ND H; [unfold zlen in H; cbn in H; lia|]. rewrite zlen_cons in H. inversion ND as [|? ? Hx ND']; subst.
  destruct (Z.eq_dec r 0) as [->|Hr]; [cbn [pos at_]; change (at_ (x :: l) 0) with x; now rewrite Z.eqb_refl|].
  rewrite at_cons by lia. cbn [pos]. assert (Hi : In (at_ l (r - 1)) l) by (apply at_In; lia).
  destruct (x =? at_ l (r - 1)) eqn:E; [apply Z.eqb_eq in E; congruence|]. rewrite IH by (auto; lia). lia.
Qed.
Lemma pos_inj : forall l p q, In p l -> In q l -> pos l p = pos l q -> p = q.
Proof. intros l p q Hp Hq H. rewrite <- (at_pos l p Hp), <- (at_pos l q Hq), H. reflexivity. Qed.
Lemma at_app_l : forall a b r, 0 <= r < zlen a -> at_ (a ++ b) r = at_ a r.
Proof. intros a b r H. unfold at_, zlen in *. apply app_nth1. lia. Qed.
Lemma at_app_r : forall a b r, zlen a <= r -> at_ (a ++ b) r = at_ b (r - zlen a).
Proof. intros a b r H. unfold at_, zlen in *. rewrite app_nth2 by lia. f_equal. lia. Qed.
Lemma at_ext : forall a b, zlen a = zlen b -> (forall r, 0 <= r < zlen a -> at_ a r = at_ b r) -> a = b.
Proof.
  intros a b HL H. apply nth_ext_Z; [unfold zlen in HL; lia|]. intros i Hi. specialize (H (Z.of_nat i)). unfold at_, zlen in H.
  rewrite Nat2Z.id in H. apply H. lia.
Qed.
Lemma at_map : forall f l r, 0 <= r < zlen l -> at_ (map f l) r = f (at_ l r).
Proof. intros f l r H. unfold at_. rewrite nth_indep with (d' := f 0) by (rewrite map_length; unfold zlen in H; lia). apply map_nth. Qed.
Lemma at_zrange : forall n r, 0 <= r < n -> at_ (zrange 0 n) r = r.
Proof. intros n r H. unfold at_, zrange. rewrite zseq_nth; lia. Qed.

Lemma NoDup_pos_map : forall l m, NoDup m -> incl m l -> NoDup (map (pos l) m).
Proof. intros l m ND HI. apply NoDup_map_inj; [exact ND|]. intros a b Ha Hb. apply pos_inj; auto. Qed.

(** ** Sorting by keys *)
Lemma sorted_unique : forall (key : Z -> Z) l2 l1, Permutation l1 l2 -> StronglySorted (fun a b => key a <= key b) l1 ->
  StronglySorted (fun a b => key a < key b) l2 -> l1 = l2.
Proof.
  intros key. induction l2 as [|a l2 IH]; intros l1 HP H1 H2; [now apply Permutation_sym, Permutation_nil in HP|].
  destruct l1 as [|x l1]; [apply Permutation_nil in HP; discriminate|]. inversion H1 as [|? ? S1 F1]; subst. inversion H2 as [|? ? S2 F2]; subst.
  assert (x = a).
  { destruct (Z.eq_dec x a) as [E|N]; [exact E|exfalso]. assert (Hx : In x (a :: l2)) by (apply (Permutation_in _ HP); now left).
    assert (Ha : In a (x :: l1)) by (apply (Permutation_in _ (Permutation_sym HP)); now left).
    destruct Hx as [Hx|Hx]; [congruence|]. destruct Ha as [Ha|Ha]; [congruence|]. rewrite Forall_forall in F1, F2.
    specialize (F1 a Ha). specialize (F2 x Hx). lia. }
  subst x. f_equal. apply IH; auto. now apply Permutation_cons_inv in HP.
Qed.
Lemma insertByKey_perm : forall key r l, Permutation (insertByKey key r l) (r :: l).
Proof.
  intros key r. induction l as [|x l IH]; [reflexivity|]. cbn [insertByKey]. destruct (key r <? key x); [reflexivity|].
  rewrite IH. apply perm_swap.
Qed.
Lemma insertByKey_sorted : forall key r l, StronglySorted (fun a b => key a <= key b) l -> StronglySorted (fun a b => key a <= key b) (insertByKey key r l).
Proof.
  intros key r. induction l as [|x l IH]; intros H; [constructor; constructor|]. cbn [insertByKey]. destruct (key r <? key x) eqn:E.
  - apply Z.ltb_lt in E. constructor; [exact H|]. constructor; [lia|]. inversion H as [|? ? S F]; subst. rewrite Forall_forall in *.
    intros y Hy. specialize (F y Hy). lia.
  - apply Z.ltb_ge in E. inversion H as [|? ? S F]; subst. constructor; [now apply IH|]. rewrite Forall_forall in *.
    intros y Hy. apply (Permutation_in _ (insertByKey_perm key r l)) in Hy. destruct Hy as [<-|Hy]; [exact E|now apply F].
Qed.
Lemma insertAll : forall key l acc, StronglySorted (fun a b => key a <= key b) acc ->
  Permutation (fold_left (fun a r => insertByKey key r a) l acc) (l ++ acc) /\
  StronglySorted (fun a b => key a <= key b) (fold_left (fun a r => insertByKey key r a) l acc).
Proof.
  intros key. induction l as [|x l IH]; intros acc H; [split; [reflexivity|exact H]|]. cbn [fold_left].
  destruct (IH (insertByKey key x acc) (insertByKey_sorted key x acc H)) as (HP & HS). split; [|exact HS]. rewrite HP.
  rewrite (Permutation_app_head l (insertByKey_perm key x acc)). symmetry. cbn [app]. apply Permutation_middle.
Qed.
Lemma sorted_map : forall (key keyP : Z -> Z) (f : Z -> Z) E, (forall p, In p E -> key (f p) = keyP p) ->
  StronglySorted (fun p q => keyP p < keyP q) E -> StronglySorted (fun a b => key a < key b) (map f E).
Proof.
  intros key keyP f. induction E as [|p E IH]; intros HK H; [constructor|]. inversion H as [|? ? S F]; subst. cbn [map]. constructor.
  - apply IH; auto. intros q Hq. apply HK. now right.
  - rewrite Forall_map, Forall_forall in *. intros q Hq. rewrite (HK p) by now left. rewrite (HK q) by now right. now apply F.
Qed.
Lemma sorted_NoDup : forall (key : Z -> Z) l, StronglySorted (fun a b => key a < key b) l -> NoDup l.
Proof.
  intros key. induction l as [|x l IH]; intros H; [constructor|]. inversion H as [|? ? S F]; subst. constructor; [|now apply IH].
  intros Hx. rewrite Forall_forall in F. specialize (F x Hx). lia.
Qed.

(** MPI_Comm_split: the members of the colour, sorted by their keys. *)
Lemma commSplit_eq : forall members color key c E keyP, NoDup members ->
  (forall p, In p E <-> In p members /\ color (pos members p) = Some c) -> (forall p, In p E -> key (pos members p) = keyP p) ->
  StronglySorted (fun p q => keyP p < keyP q) E -> commSplit members color key c = E.
Proof.
  intros members color key c E keyP ND HE HK HS. unfold commSplit.
  assert (HE2 : splitRanks (Z.of_nat (length members)) color key c = map (pos members) E).
  { unfold splitRanks. destruct (insertAll key (filter (hasColor color c) (zrange 0 (Z.of_nat (length members)))) []) as (HP & HS2); [constructor|].
    rewrite app_nil_r in HP. apply (sorted_unique key); [|exact HS2|now apply sorted_map with (keyP := keyP)].
    rewrite HP. apply NoDup_Permutation.
    - apply NoDup_filter, zrange_NoDup.
    - apply NoDup_pos_map; [now apply sorted_NoDup with (key := keyP)|]. intros p Hp. now apply HE in Hp.
    - intros r. rewrite filter_In, zrange_In, in_map_iff. unfold hasColor. split.
      + intros (Hr & HC). exists (at_ members r). assert (Hr' : 0 <= r < zlen members) by (unfold zlen; lia).
        pose proof (pos_at members r ND Hr') as Hpos. split; [exact Hpos|]. apply HE. split; [now apply at_In|]. rewrite Hpos.
        destruct (color r) as [c'|]; [|discriminate]. apply Z.eqb_eq in HC. now subst c'.
      + intros (p & <- & Hp). apply HE in Hp. destruct Hp as (Hp & HC). rewrite HC, Z.eqb_refl. split; [|reflexivity].
        pose proof (pos_range members p Hp). unfold zlen in *. lia. }
  rewrite HE2, map_map. rewrite <- (map_id E) at 2. apply map_ext_in. intros p Hp. apply HE in Hp. now apply (at_pos members p).
Qed.

(** Positions along a list increase. *)
Lemma pos_sorted : forall l, NoDup l -> StronglySorted (fun p q => pos l p < pos l q) l.
Proof.
  induction l as [|x l IH]; intros ND; [constructor|]. inversion ND as [|? ? Hx ND']; subst. constructor.
  - specialize (IH ND'). clear ND. assert (G : forall m, (forall y, In y m -> y <> x) -> StronglySorted (fun p q => pos l p < pos l q) m ->
      StronglySorted (fun p q => pos (x :: l) p < pos (x :: l) q) m).
    { induction m as [|y m IHm]; intros HN HS; [constructor|]. inversion HS as [|? ? S F]; subst. constructor.
      - apply IHm; auto. intros z Hz. apply HN. now right.
      - rewrite Forall_forall in *. intros z Hz. cbn [pos]. assert (y <> x) by (apply HN; now left). assert (z <> x) by (apply HN; now right).
        destruct (x =? y) eqn:E1; [apply Z.eqb_eq in E1; congruence|]. destruct (x =? z) eqn:E2; [apply Z.eqb_eq in E2; congruence|].
        specialize (F z Hz). lia. }
    apply G; auto. intros y Hy ->. exact (Hx Hy).
  - rewrite Forall_forall. intros y Hy. cbn [pos]. rewrite Z.eqb_refl. destruct (x =? y) eqn:E; [apply Z.eqb_eq in E; congruence|].
    pose proof (pos_range l y Hy). lia.
Qed.
Lemma sorted_filter : forall (R : Z -> Z -> Prop) f l, StronglySorted R l -> StronglySorted R (filter f l).
Proof.
  intros R f. induction l as [|x l IH]; intros H; [constructor|]. inversion H as [|? ? S F]; subst. cbn [filter]. destruct (f x); [|now apply IH].
  constructor; [now apply IH|]. rewrite Forall_forall in *. intros y Hy. apply filter_In in Hy. now apply F.
Qed.
Lemma sorted_firstn : forall (R : Z -> Z -> Prop) k l, StronglySorted R l -> StronglySorted R (firstn k l).
Proof.
  intros R. induction k as [|k IH]; intros [|x l] H; cbn [firstn]; try constructor; inversion H as [|? ? S F]; subst; [now apply IH|].
  rewrite Forall_forall in *. intros y Hy. apply F. rewrite <- (firstn_skipn k l). apply in_or_app. now left.
Qed.
Lemma sorted_skipn : forall (R : Z -> Z -> Prop) k l, StronglySorted R l -> StronglySorted R (skipn k l).
Proof. intros R. induction k as [|k IH]; intros [|x l] H; cbn [skipn]; try exact H. inversion H; subst. now apply IH. Qed.
Lemma sorted_ext : forall (k1 k2 : Z -> Z) l, (forall p, In p l -> k1 p = k2 p) -> StronglySorted (fun p q => k1 p < k1 q) l ->
  StronglySorted (fun p q => k2 p < k2 q) l.
Proof.
  intros k1 k2. induction l as [|x l IH]; intros HK H; [constructor|]. inversion H as [|? ? S F]; subst. constructor.
  - apply IH; auto. intros; apply HK; now right.
  - rewrite Forall_forall in *. intros y Hy. rewrite <- (HK x) by now left. rewrite <- (HK y) by now right. now apply F.
Qed.

(** ** Groups *)
Section Groups.
Variables (n : Z) (world : list Z) (G : Z).
Hypotheses (Hn : 0 < n) (HG : 0 <= G) (HL : zlen world = G * n + 1) (ND : NoDup world).

Lemma numGroups_eq : numGroups n world = G.
Proof. unfold numGroups. rewrite HL. replace (G * n + 1 - 1) with (G * n) by lia. apply Z.div_mul. lia. Qed.
Lemma block_len : forall g, 0 <= g < G -> zlen (block n world g) = n.
Proof.
  intros g Hg. unfold zlen, block in *. rewrite firstn_length, skipn_length. assert (g * n + n <= G * n) by nia. lia.
Qed.
Lemma nth_firstn0 : forall (l : list Z) k i, (i < k)%nat -> nth i (firstn k l) 0 = nth i l 0.
Proof. induction l as [|x l IH]; intros [|k] [|i] H; cbn; try lia; auto. apply IH. lia. Qed.
Lemma nth_skipn0 : forall (l : list Z) k i, nth i (skipn k l) 0 = nth (k + i) l 0.
Proof. induction l as [|x l IH]; intros [|k] i; cbn; auto. destruct i; reflexivity. Qed.
Lemma block_at : forall g j, 0 <= g < G -> 0 <= j < n -> at_ (block n world g) j = at_ world (g * n + j).
Proof.
  intros g j Hg Hj. unfold at_, block. rewrite nth_firstn0 by lia. rewrite nth_skipn0. f_equal. assert (0 <= g * n) by nia. lia.
Qed.
Lemma block_In : forall g p, 0 <= g < G -> (In p (block n world g) <-> In p world /\ g * n <= pos world p < g * n + n).
Proof.
  intros g p Hg. split.
  - intros H. pose proof (pos_range _ _ H) as HR. rewrite (block_len g Hg) in HR. pose proof (at_pos _ _ H) as HA. rewrite block_at in HA by auto.
    assert (0 <= g * n + pos (block n world g) p < zlen world) by (rewrite HL; nia). rewrite <- HA. split; [now apply at_In|].
    rewrite pos_at by auto. lia.
  - intros (HI & HR). rewrite <- (at_pos world p HI). replace (pos world p) with (g * n + (pos world p - g * n)) by lia.
    rewrite <- block_at by lia. apply at_In. rewrite block_len by auto. lia.
Qed.
Lemma group_of : forall p, In p world -> pos world p <> zlen world - 1 -> 0 <= pos world p / n < G /\ In p (block n world (pos world p / n)).
Proof.
  intros p Hp Hm. pose proof (pos_range _ _ Hp) as HR. rewrite HL in *. pose proof (Z.div_mod (pos world p) n ltac:(lia)).
  pose proof (Z.mod_pos_bound (pos world p) n Hn). assert (0 <= pos world p / n < G) by (split; [apply Z.div_pos; lia|apply Z.div_lt_upper_bound; lia]).
  split; [assumption|]. apply block_In; auto. split; auto. nia.
Qed.
Lemma block_group : forall g p, 0 <= g < G -> In p (block n world g) -> pos world p / n = g /\ pos world p <> zlen world - 1.
Proof.
  intros g p Hg H. apply block_In in H; auto. destruct H as (_ & H). split; [symmetry; apply Z.div_unique with (r := pos world p - g * n); nia|].
  rewrite HL. nia.
Qed.
Definition manager := at_ world (G * n).
Lemma manager_pos : pos world manager = zlen world - 1.
Proof. unfold manager. rewrite pos_at; auto; rewrite HL; nia. Qed.
Lemma manager_In : In manager world.
Proof. apply at_In. rewrite HL. nia. Qed.

Lemma flat_block_at : forall gs i j, (forall g, In g gs -> 0 <= g < G) -> 0 <= i < zlen gs -> 0 <= j < n ->
  at_ (flat_map (block n world) gs) (i * n + j) = at_ world (at_ gs i * n + j).
Proof.
  induction gs as [|g gs IH]; intros i j HGs Hi Hj; [unfold zlen in Hi; cbn in Hi; lia|]. rewrite zlen_cons in Hi. cbn [flat_map].
  pose proof (block_len g (HGs g (or_introl eq_refl))) as HB. destruct (Z.eq_dec i 0) as [->|Hi0].
  - rewrite at_app_l by lia. change (at_ (g :: gs) 0) with g. replace (0 * n + j) with j by lia. apply block_at; auto. apply HGs. now left.
  - rewrite at_app_r by nia. rewrite HB. replace (i * n + j - n) with ((i - 1) * n + j) by lia. rewrite IH; [|intros; apply HGs; now right|lia|lia].
    rewrite (at_cons g gs i) by lia. reflexivity.
Qed.
Lemma flat_block_len : forall gs, (forall g, In g gs -> 0 <= g < G) -> zlen (flat_map (block n world) gs) = zlen gs * n.
Proof.
  induction gs as [|g gs IH]; intros HGs; [reflexivity|]. cbn [flat_map]. rewrite zlen_app, zlen_cons, IH, block_len; [lia| |]; intros; apply HGs; cbn; auto.
Qed.
Lemma world_blocks : world = flat_map (block n world) (zrange 0 G) ++ [manager].
Proof.
  assert (HGs : forall g, In g (zrange 0 G) -> 0 <= g < G) by (intros g Hg; now apply zrange_In in Hg).
  assert (HF : zlen (flat_map (block n world) (zrange 0 G)) = G * n) by (rewrite flat_block_len, zlen_zrange; auto).
  apply at_ext; [rewrite zlen_app, HF, HL; reflexivity|]. intros r Hr. rewrite HL in Hr. destruct (Z.eq_dec r (G * n)) as [->|Hr2].
  - rewrite at_app_r by lia. rewrite HF, Z.sub_diag. reflexivity.
  - rewrite at_app_l by lia. pose proof (Z.div_mod r n ltac:(lia)). pose proof (Z.mod_pos_bound r n Hn).
    assert (0 <= r / n < G) by (split; [apply Z.div_pos; lia|apply Z.div_lt_upper_bound; lia]).
    replace r with (r / n * n + r mod n) by lia. rewrite flat_block_at by (auto; rewrite zlen_zrange; auto). rewrite at_zrange by auto. reflexivity.
Qed.

Variable dead : Z -> bool.
Hypothesis Hdead : forall p, dead p = true -> In p world /\ pos world p <> zlen world - 1.
Definition okGroups := filter (fun g => negb (groupFailed n dead world g)) (zrange 0 G).
Lemma alive_manager : groupAlive n dead world manager = true.
Proof. unfold groupAlive. rewrite manager_pos, Z.eqb_refl. reflexivity. Qed.
Lemma alive_block : forall g p, 0 <= g < G -> In p (block n world g) -> groupAlive n dead world p = negb (groupFailed n dead world g).
Proof.
  intros g p Hg H. destruct (block_group g p Hg H) as (HE & HM). unfold groupAlive. rewrite HE. destruct (_ =? _) eqn:E; [apply Z.eqb_eq in E; lia|reflexivity].
Qed.
Lemma dead_not_alive : forall p, dead p = true -> groupAlive n dead world p = false.
Proof.
  intros p H. destruct (Hdead p H) as (HI & HM). destruct (group_of p HI HM) as (Hg & HB). rewrite (alive_block _ p Hg HB).
  apply negb_false_iff. unfold groupFailed. apply existsb_exists. exists p. auto.
Qed.
Lemma filter_flat : forall f gs, filter f (flat_map (block n world) gs) = flat_map (fun g => filter f (block n world g)) gs.
Proof. intros f. induction gs as [|g gs IH]; [reflexivity|]. cbn [flat_map]. rewrite filter_app, IH. reflexivity. Qed.
Lemma filter_all : forall (f : Z -> bool) l, (forall x, In x l -> f x = true) -> filter f l = l.
Proof. intros f. induction l as [|x l IH]; intros H; [reflexivity|]. cbn [filter]. rewrite H by now left. f_equal. apply IH. intros; apply H; now right. Qed.
Lemma filter_none : forall (f : Z -> bool) l, (forall x, In x l -> f x = false) -> filter f l = [].
Proof. intros f. induction l as [|x l IH]; intros H; [reflexivity|]. cbn [filter]. rewrite H by now left. apply IH. intros; apply H; now right. Qed.
Lemma flat_filter : forall (h : Z -> bool) (f : Z -> bool) gs, (forall g, In g gs -> 0 <= g < G) ->
  (forall g p, In g gs -> In p (block n world g) -> f p = h g) ->
  flat_map (fun g => filter f (block n world g)) gs = flat_map (block n world) (filter h gs).
Proof.
  intros h f. induction gs as [|g gs IH]; intros HGs H; [reflexivity|]. cbn [flat_map filter]. rewrite IH; [|intros; apply HGs; now right|intros; apply H; auto; now right].
  destruct (h g) eqn:E.
  - cbn [flat_map]. f_equal. apply filter_all. intros x Hx. rewrite (H g x); auto. now left.
  - rewrite filter_none; [reflexivity|]. intros x Hx. rewrite (H g x); auto. now left.
Qed.
Lemma alive_world : filter (groupAlive n dead world) world = flat_map (block n world) okGroups ++ [manager].
Proof.
  etransitivity; [exact (f_equal (filter (groupAlive n dead world)) world_blocks)|]. rewrite filter_app. cbn [filter]. rewrite alive_manager. f_equal. rewrite filter_flat.
  apply flat_filter; [intros g Hg; now apply zrange_In in Hg|]. intros g p Hg Hp. apply alive_block; auto. now apply zrange_In in Hg.
Qed.
Lemma failed_world : filter (fun p => negb (groupAlive n dead world p)) world = flat_map (block n world) (failedGroupIDs n dead world).
Proof.
  etransitivity; [exact (f_equal (filter (fun p => negb (groupAlive n dead world p))) world_blocks)|]. rewrite filter_app. cbn [filter]. rewrite alive_manager, app_nil_r. rewrite filter_flat.
  unfold failedGroupIDs. rewrite numGroups_eq. apply flat_filter; [intros g Hg; now apply zrange_In in Hg|]. intros g p Hg Hp.
  rewrite (alive_block g); auto; [apply negb_involutive|]. now apply zrange_In in Hg.
Qed.
Lemma ok_In : forall g, In g okGroups -> 0 <= g < G.
Proof. intros g H. unfold okGroups in H. apply filter_In in H. now apply zrange_In. Qed.
Lemma count_left : zlen (filter (fun p => negb (dead p) && negb (groupAlive n dead world p)) world) =
  zlen (failedGroupIDs n dead world) * n - (zlen world - zlen (filter (fun p => negb (dead p)) world)).
Proof.
  assert (H1 : zlen (filter (fun p => negb (groupAlive n dead world p)) world) = zlen (failedGroupIDs n dead world) * n).
  { rewrite failed_world. apply flat_block_len. intros g Hg. unfold failedGroupIDs in Hg. rewrite numGroups_eq in Hg. apply filter_In in Hg. now apply zrange_In. }
  assert (H2 : forall l, (forall p, dead p = true -> groupAlive n dead world p = false) ->
    zlen (filter (fun p => negb (dead p) && negb (groupAlive n dead world p)) l) =
    zlen (filter (fun p => negb (groupAlive n dead world p)) l) - (zlen l - zlen (filter (fun p => negb (dead p)) l))).
  { intros l HD. induction l as [|x l IH]; [reflexivity|]. cbn [filter]. destruct (dead x) eqn:E; cbn [negb andb].
    - rewrite (HD x E). cbn [negb]. rewrite !zlen_cons, IH. lia.
    - destruct (groupAlive n dead world x); cbn [negb]; rewrite ?zlen_cons, IH; lia. }
  rewrite (H2 world dead_not_alive), H1. lia.
Qed.
End Groups.
Lemma count_dead : forall dead l, zlen (filter dead l) = zlen l - zlen (filter (fun p => negb (dead p)) l).
Proof. intros dead. induction l as [|x l IH]; [reflexivity|]. cbn [filter]. destruct (dead x); cbn [negb]; rewrite !zlen_cons, IH; lia. Qed.

(** ** The new ranks *)
Lemma newRank_some : forall fs xs r f, newRank fs xs r = Some f -> exists i, 0 <= i < zlen fs /\ i < zlen xs /\ at_ fs i = f /\ at_ xs i = r.
Proof.
  induction fs as [|a fs IH]; intros [|x xs] r f H; cbn [newRank] in H; try discriminate. rewrite !zlen_cons. pose proof (zlen_nonneg fs) as P1. pose proof (zlen_nonneg xs) as P2.
  destruct (x =? r) eqn:E.
  - apply Z.eqb_eq in E. inversion H. subst. exists 0. repeat split; lia.
  - destruct (IH xs r f H) as (i & H1 & H2 & H3 & H4). exists (i + 1). rewrite !at_cons by lia. replace (i + 1 - 1) with i by lia. repeat split; auto; lia.
Qed.
Lemma newRank_at : forall fs xs i, NoDup xs -> 0 <= i < zlen fs -> i < zlen xs -> newRank fs xs (at_ xs i) = Some (at_ fs i).
Proof.
  induction fs as [|a fs IH]; intros [|x xs] i ND H1 H2; rewrite ?zlen_cons in *; try (unfold zlen in *; cbn in *; lia). inversion ND as [|? ? Hx ND']; subst.
  destruct (Z.eq_dec i 0) as [->|Hi]; [cbn [newRank]; change (at_ (x :: xs) 0) with x; now rewrite Z.eqb_refl|].
  rewrite !at_cons by lia. cbn [newRank]. destruct (x =? at_ xs (i - 1)) eqn:E; [|apply IH; auto; lia].
  apply Z.eqb_eq in E. exfalso. apply Hx. rewrite E. apply at_In. lia.
Qed.
Lemma zrange_lt : forall b, StronglySorted (fun a c => a < c) (zrange 0 b).
Proof.
  intros b. unfold zrange. generalize (Z.to_nat (b - 0)). intros m. generalize 0. induction m as [|k IH]; intros a; [constructor|]. cbn [zseq]. constructor; [apply IH|].
  rewrite Forall_forall. intros x Hx. apply zseq_In in Hx. lia.
Qed.
Lemma NoDup_filter' : forall (f : Z -> bool) l, NoDup l -> NoDup (filter f l). Proof. intros. now apply NoDup_filter. Qed.

(** ** The invariant *)
Definition managerOf (s : ftState) : Z := at_ (fWorld s) (zlen (fWorld s) - 1).
Definition sparesOf (s : ftState) : list Z := filter (fun p => negb (isIn p (fWorld s))) (fSpare s).
Record ftInv (n : Z) (s : ftState) : Prop := {
  i_nds : NoDup (fSpare s);
  i_ndw : NoDup (fWorld s);
  i_incl : incl (fWorld s) (fSpare s);
  i_len : exists G, 0 < G /\ zlen (fWorld s) = G * n + 1 /\ fMasters s = zrange 0 G;
  i_last : exists l, fSpare s = l ++ [managerOf s];
  i_rank : forall p, In p (fWorld s) -> fRank s p = pos (fWorld s) p;
  i_reus : Permutation (fReusable s) (map (pos (fSpare s)) (sparesOf s));
  i_local : forall p, In p (fWorld s) -> p <> managerOf s -> fLocal s p = block n (fWorld s) (pos (fWorld s) p / n) }.

Section Recover.
Variables (n : Z) (s : ftState) (dead : Z -> bool) (o : arrival).
Hypotheses (Hn : 0 < n) (HI : ftInv n s) (HF : failure n dead s) (HO : validOrder o).
Let W := fWorld s.
Let spare := filter (fun p => negb (dead p)) (fSpare s).

Lemma r_ndW : NoDup W. Proof. exact (i_ndw n s HI). Qed.
Lemma r_nds : NoDup spare. Proof. apply NoDup_filter. exact (i_nds n s HI). Qed.
Lemma r_dead : forall p, dead p = true -> In p W /\ pos W p <> zlen W - 1. Proof. exact (proj1 HF). Qed.
Lemma r_len : exists G, 0 < G /\ zlen W = G * n + 1 /\ fMasters s = zrange 0 G. Proof. exact (i_len n s HI). Qed.
Lemma r_inW : forall p, In p W -> dead p = false -> In p spare.
Proof. intros p H1 H2. apply filter_In. split; [now apply (i_incl n s HI)|now rewrite H2]. Qed.
Lemma r_manager : In (managerOf s) W /\ dead (managerOf s) = false /\ pos W (managerOf s) = zlen W - 1.
Proof.
  destruct r_len as (G & HG & HL & _). assert (R : 0 <= zlen W - 1 < zlen W) by nia. assert (P : pos W (managerOf s) = zlen W - 1) by (apply pos_at; [exact r_ndW|exact R]).
  split; [now apply at_In|]. split; [|exact P]. destruct (dead (managerOf s)) eqn:E; [|reflexivity]. destruct (r_dead _ E) as (_ & N). congruence.
Qed.
Lemma r_spares : sparesOf s = filter (fun p => negb (isIn p W)) spare.
Proof.
  unfold sparesOf, spare. fold W. induction (fSpare s) as [|x l IH]; [reflexivity|]. cbn [filter]. destruct (dead x) eqn:E; cbn [negb].
  - rewrite (proj2 (isIn_iff x W) (proj1 (r_dead x E))). cbn [negb]. exact IH.
  - cbn [filter]. destruct (isIn x W); cbn [negb]; [exact IH|now rewrite IH].
Qed.
Lemma r_last : at_ spare (zlen spare - 1) = managerOf s /\ exists l, spare = l ++ [managerOf s].
Proof.
  destruct (i_last n s HI) as (l & El). assert (E : spare = filter (fun p => negb (dead p)) l ++ [managerOf s]).
  { unfold spare. rewrite El, filter_app. cbn [filter]. now rewrite (proj1 (proj2 r_manager)). }
  split; [|eauto]. rewrite E, zlen_app. rewrite at_app_r by (unfold zlen; cbn; lia). unfold zlen at 2. cbn [length].
  replace (zlen (filter (fun p : Z => negb (dead p)) l) + Z.of_nat 1 - 1 - zlen (filter (fun p : Z => negb (dead p)) l)) with 0 by lia. reflexivity.
Qed.
Lemma r_sizes : zlen spare - zlen (filter (fun p => negb (dead p)) W) = zlen (sparesOf s).
Proof.
  rewrite r_spares. assert (H1 : zlen spare = zlen (filter (fun p => isIn p W) spare) + zlen (filter (fun p => negb (isIn p W)) spare)).
  { clear. induction spare as [|x l IH]; [reflexivity|]. cbn [filter]. destruct (isIn x W); cbn [negb]; rewrite !zlen_cons, IH; lia. }
  assert (H2 : zlen (filter (fun p => isIn p W) spare) = zlen (filter (fun p => negb (dead p)) W)).
  { apply zlen_perm, NoDup_Permutation; [apply NoDup_filter, r_nds|apply NoDup_filter, r_ndW|]. intros p. rewrite !filter_In, isIn_iff.
    unfold spare. rewrite filter_In. split; [tauto|]. intros (H & H'). split; [split; [now apply (i_incl n s HI)|exact H']|exact H]. }
  lia.
Qed.
Lemma in_spares : forall p, In p (sparesOf s) <-> In p spare /\ ~ In p W.
Proof. intros p. rewrite r_spares, filter_In, negb_true_iff, isIn_false. reflexivity. Qed.

Let left := filter (fun p => negb (dead p) && negb (groupAlive n dead W p)) W.
Let sentFailed := map (fRank s) (filter dead W).
Let failed := arrFailed o sentFailed.
Let sentSpare := map (pos spare) (sparesOf s).
Let reusable := arrSpare o sentSpare.
Let newReusable := arrReusable o (map (fRank s) left).
Let k := length failed.

Lemma failed_perm : Permutation failed (map (pos W) (filter dead W)).
Proof.
  unfold failed. rewrite (proj1 HO sentFailed). unfold sentFailed. erewrite map_ext_in; [reflexivity|]. intros p Hp. apply filter_In in Hp.
  now apply (i_rank n s HI).
Qed.
Lemma failed_In : forall r, In r failed <-> 0 <= r < zlen W /\ dead (at_ W r) = true.
Proof.
  intros r. split.
  - intros H. apply (Permutation_in _ failed_perm) in H. apply in_map_iff in H. destruct H as (p & <- & Hp). apply filter_In in Hp.
    rewrite at_pos by tauto. split; [now apply pos_range|tauto].
  - intros (H1 & H2). apply (Permutation_in _ (Permutation_sym failed_perm)). apply in_map_iff. exists (at_ W r).
    split; [apply pos_at; auto; exact r_ndW|]. apply filter_In. split; [now apply at_In|exact H2].
Qed.
Lemma failed_len : zlen failed = zlen W - zlen (filter (fun p => negb (dead p)) W).
Proof. rewrite (zlen_perm _ _ failed_perm), zlen_map. apply count_dead. Qed.
Lemma reusable_perm : Permutation reusable (map (pos spare) (sparesOf s)).
Proof. exact (proj1 (proj2 (proj2 HO)) sentSpare). Qed.
Lemma reusable_In : forall r, In r reusable <-> 0 <= r < zlen spare /\ ~ In (at_ spare r) W.
Proof.
  intros r. split.
  - intros H. apply (Permutation_in _ reusable_perm) in H. apply in_map_iff in H. destruct H as (p & <- & Hp). apply in_spares in Hp.
    rewrite at_pos by tauto. split; [now apply pos_range|tauto].
  - intros (H1 & H2). apply (Permutation_in _ (Permutation_sym reusable_perm)). apply in_map_iff. exists (at_ spare r).
    split; [apply pos_at; auto; exact r_nds|]. apply in_spares. split; [now apply at_In|exact H2].
Qed.
Lemma reusable_NoDup : NoDup reusable.
Proof.
  apply (Permutation_NoDup (Permutation_sym reusable_perm)). apply NoDup_pos_map.
  - unfold sparesOf. apply NoDup_filter, (i_nds n s HI).
  - intros p Hp. now apply in_spares in Hp.
Qed.
Lemma left_In : forall p, In p left <-> In p W /\ dead p = false /\ groupAlive n dead W p = false.
Proof. intros p. unfold left. rewrite filter_In, andb_true_iff, !negb_true_iff. tauto. Qed.
Lemma told_ok : forallb (fun p => isIn (fRank s p) newReusable) left = true.
Proof.
  apply forallb_forall. intros p Hp. apply isIn_iff. unfold newReusable. apply (Permutation_in _ (Permutation_sym (proj1 (proj2 HO) _))). now apply in_map.
Qed.
Lemma shrink_ok : forallb (fun p => isIn (pos (fSpare s) p) (fReusable s)) (sparesOf s) = true.
Proof. apply forallb_forall. intros p Hp. apply isIn_iff. apply (Permutation_in _ (Permutation_sym (i_reus n s HI))). now apply in_map. Qed.

(** What the function computes after the receives. *)
Definition outcome (enough : bool) : option (ftState * bool) :=
  let assigned := if enough then firstn k reusable else [] in
  let excluded := if enough then skipn k reusable else reusable in
  let isNew r := match newRank failed assigned r with Some _ => true | None => false end in
  let rank r := if isIn (at_ spare r) W then fRank s (at_ spare r) else match newRank failed assigned r with Some f => f | None => r end in
  let color r := if isIn (at_ spare r) W then if groupAlive n dead W (at_ spare r) then Some 1 else if negb enough then None else Some 1
                 else if isNew r then Some 1 else None in
  if forallb (fun r => isIn (at_ spare r) W || isNew r || isIn r excluded) (zrange 0 (zlen spare)) then
    let newWorld := commSplit spare color rank 1 in
    if (zlen newWorld - 1) mod n =? 0 then
      let newRanks p := if isIn p newWorld then pos newWorld p else pos spare p in
      let joins p := negb (isIn p W && groupAlive n dead W p) in
      let newLocal p := if joins p && isIn p newWorld
                        then commSplit newWorld (fun r => if joins (at_ newWorld r) then localColor n r else None) (localKey n) (newRanks p / n)
                        else fLocal s p in
      Some (FT spare newWorld newRanks newLocal (excluded ++ (if negb enough then arrNew o (map (pos spare) left) else []))
              (if negb enough then zrange 0 (Z.of_nat (length (filter (fun g => negb (groupFailed n dead W g)) (zrange 0 (zlen (fMasters s)))))) else fMasters s),
            negb enough)
    else None
  else None.

Lemma recover_outcome : recover n dead o s = outcome (zlen failed <=? zlen (sparesOf s)).
Proof.
  destruct r_len as (G & HG & HL & HM). unfold recover, recoverCommunicators. cbv zeta. fold W spare. rewrite <- r_spares. fold left sentFailed sentSpare.
  fold failed reusable newReusable.
  assert (E1 : zlen W - zlen (filter (fun p : Z => negb (dead p)) W) = zlen failed) by (symmetry; exact failed_len). rewrite E1.
  unfold receiveAll at 1. assert (E2 : zlen failed = zlen sentFailed) by (apply zlen_perm; exact (proj1 HO sentFailed)). rewrite E2 at 1. rewrite Z.eqb_refl.
  unfold receiveAll at 1. assert (E3 : zlen (failedGroupIDs n dead W) * n - zlen failed = zlen (map (fRank s) left)).
  { rewrite zlen_map. unfold left. rewrite (count_left n W G Hn ltac:(lia) HL r_ndW dead r_dead). rewrite <- E1. reflexivity. }
  rewrite E3, Z.eqb_refl. unfold receiveAll at 1. assert (E4 : zlen (fReusable s) = zlen sentSpare).
  { rewrite (zlen_perm _ _ (i_reus n s HI)). unfold sentSpare. now rewrite !zlen_map. }
  rewrite E4, Z.eqb_refl. rewrite r_sizes. rewrite told_ok, shrink_ok. rewrite (proj1 r_last). change (at_ W (zlen W - 1)) with (managerOf s). rewrite Z.eqb_refl.
  rewrite !andb_true_r. unfold outcome. cbv zeta. fold k. set (enough := zlen failed <=? zlen (sparesOf s)).
  destruct (forallb _ _); [|reflexivity]. destruct (_ mod n =? 0); [|reflexivity]. destruct enough; cbn [negb]; [reflexivity|].
  unfold receiveAll. assert (E5 : zlen newReusable = zlen (map (pos spare) left)).
  { unfold newReusable. rewrite (zlen_perm _ _ (proj1 (proj2 HO) _)). now rewrite !zlen_map. }
  rewrite E5, Z.eqb_refl. reflexivity.
Qed.

(** *** Enough processes *)
Section Enough.
Hypothesis HE : zlen failed <= zlen (sparesOf s).
Let assigned := firstn k reusable.
Let e (r : Z) : Z := if dead (at_ W r) then at_ spare (at_ assigned (pos failed r)) else at_ W r.
Let E := map e (zrange 0 (zlen W)).
Let keyP (p : Z) : Z := if isIn p W then pos W p else match newRank failed assigned (pos spare p) with Some f => f | None => pos spare p end.

Lemma assigned_len : zlen assigned = zlen failed.
Proof.
  pose proof (zlen_perm _ _ reusable_perm) as H. rewrite zlen_map in H. unfold zlen, assigned, k in *. rewrite firstn_length. lia.
Qed.
Lemma split_reusable : reusable = assigned ++ skipn k reusable. Proof. symmetry. apply firstn_skipn. Qed.
Lemma assigned_In : forall x, In x assigned -> In x reusable. Proof. intros x H. rewrite split_reusable. apply in_or_app. now left. Qed.
Lemma assigned_NoDup : NoDup assigned.
Proof.
  pose proof reusable_NoDup as H. rewrite split_reusable in H. revert H. generalize assigned (skipn k reusable). intros a b.
  induction a as [|x a IH]; intros H; [constructor|]. cbn [app] in H. inversion H as [|? ? H1 H2]; subst. constructor; [|now apply IH].
  intros Hx. apply H1, in_or_app. now left.
Qed.
Lemma failed_NoDup : NoDup failed.
Proof. apply (Permutation_NoDup (Permutation_sym failed_perm)). apply NoDup_pos_map; [apply NoDup_filter, r_ndW|]. intros p Hp. now apply filter_In in Hp. Qed.
Lemma newRank_iff : forall x, In x assigned <-> exists f, newRank failed assigned x = Some f.
Proof.
  intros x. split.
  - intros H. pose proof (pos_range _ _ H) as R. rewrite <- (at_pos _ _ H). eexists. apply newRank_at; [exact assigned_NoDup|rewrite <- assigned_len; lia|lia].
  - intros (f & H). apply newRank_some in H. destruct H as (i & H1 & H2 & _ & <-). apply at_In. lia.
Qed.
(** The new process at a failed rank. *)
Lemma e_dead : forall r, 0 <= r < zlen W -> dead (at_ W r) = true ->
  In (at_ assigned (pos failed r)) assigned /\ newRank failed assigned (at_ assigned (pos failed r)) = Some r /\ e r = at_ spare (at_ assigned (pos failed r)).
Proof.
  intros r Hr HD. assert (Hf : In r failed) by (apply failed_In; auto). pose proof (pos_range _ _ Hf) as R.
  split; [apply at_In; rewrite assigned_len; lia|]. split; [|unfold e; now rewrite HD].
  rewrite newRank_at; [now rewrite at_pos|exact assigned_NoDup|exact R|rewrite assigned_len; lia].
Qed.
Lemma e_dead_spare : forall r, 0 <= r < zlen W -> dead (at_ W r) = true ->
  In (e r) (sparesOf s) /\ pos spare (e r) = at_ assigned (pos failed r).
Proof.
  intros r Hr HD. destruct (e_dead r Hr HD) as (H1 & _ & ->). apply assigned_In, reusable_In in H1. split; [|apply pos_at; [exact r_nds|tauto]].
  apply in_spares. split; [now apply at_In|tauto].
Qed.
Lemma e_alive : forall r, 0 <= r < zlen W -> dead (at_ W r) = false -> e r = at_ W r. Proof. intros r _ H. unfold e. now rewrite H. Qed.
Lemma e_key : forall r, 0 <= r < zlen W -> keyP (e r) = r.
Proof.
  intros r Hr. unfold keyP. destruct (dead (at_ W r)) eqn:HD.
  - destruct (e_dead_spare r Hr HD) as (H1 & H2). apply in_spares in H1. rewrite (proj2 (isIn_false _ _) (proj2 H1)), H2.
    now rewrite (proj1 (proj2 (e_dead r Hr HD))).
  - rewrite e_alive by auto. rewrite (proj2 (isIn_iff _ _) (at_In W r Hr)). apply pos_at; [exact r_ndW|exact Hr].
Qed.
Lemma E_len : zlen E = zlen W. Proof. unfold E. rewrite zlen_map. apply zlen_zrange, zlen_nonneg. Qed.
Lemma E_at : forall r, 0 <= r < zlen W -> at_ E r = e r.
Proof. intros r Hr. unfold E. rewrite at_map by (rewrite zlen_zrange; lia). rewrite at_zrange by lia. reflexivity. Qed.
Lemma E_sorted : StronglySorted (fun p q => keyP p < keyP q) E.
Proof.
  unfold E. apply sorted_map with (keyP := fun r => r); [|apply zrange_lt]. intros r Hr. apply zrange_In in Hr. apply e_key. lia.
Qed.
Lemma E_NoDup : NoDup E. Proof. exact (sorted_NoDup keyP E E_sorted). Qed.
Lemma E_In : forall p, In p E <-> In p spare /\ (In p W \/ In (pos spare p) assigned).
Proof.
  intros p. unfold E. rewrite in_map_iff. split.
  - intros (r & <- & Hr). apply zrange_In in Hr. destruct (dead (at_ W r)) eqn:HD.
    + destruct (e_dead_spare r ltac:(lia) HD) as (H1 & H2). apply in_spares in H1. split; [tauto|]. right. rewrite H2. apply (e_dead r ltac:(lia) HD).
    + rewrite e_alive by (auto; lia). pose proof (at_In W r ltac:(lia)). split; [now apply r_inW|now left].
  - intros (H1 & [H2|H2]).
    + exists (pos W p). pose proof (pos_range _ _ H2). split; [|apply zrange_In; lia]. unfold e. rewrite (at_pos _ _ H2).
      assert (dead p = false) as -> by (unfold spare in H1; apply filter_In in H1; now apply negb_true_iff). reflexivity.
    + pose proof (proj1 (newRank_iff _) H2) as (f & Hf). pose proof (newRank_some _ _ _ _ Hf) as (i & Hi1 & Hi2 & Hi3 & Hi4).
      assert (HfIn : In f failed) by (rewrite <- Hi3; now apply at_In). pose proof HfIn as HfI2. apply failed_In in HfIn. destruct HfIn as (R & HD).
      exists f. split; [|apply zrange_In; lia]. unfold e. rewrite HD. rewrite <- Hi3. rewrite pos_at by (auto using failed_NoDup).
      rewrite Hi4. now apply at_pos.
Qed.

Lemma split_enough :
  commSplit spare (fun r => if isIn (at_ spare r) W then if groupAlive n dead W (at_ spare r) then Some 1 else if negb true then None else Some 1
                            else if match newRank failed assigned r with Some _ => true | None => false end then Some 1 else None)
    (fun r => if isIn (at_ spare r) W then fRank s (at_ spare r) else match newRank failed assigned r with Some f => f | None => r end) 1 = E.
Proof.
  apply commSplit_eq with (keyP := keyP); [exact r_nds| | |exact E_sorted].
  - intros p. rewrite E_In. split.
    + intros (H1 & H2). split; [exact H1|]. rewrite (at_pos _ _ H1). destruct (isIn p W) eqn:EW; [cbn [negb]; now destruct (groupAlive n dead W p)|].
      apply isIn_false in EW. destruct H2 as [H2|H2]; [contradiction|]. apply newRank_iff in H2. destruct H2 as (f & ->). reflexivity.
    + intros (H1 & H2). split; [exact H1|]. rewrite (at_pos _ _ H1) in H2. destruct (isIn p W) eqn:EW; [left; now apply isIn_iff|right].
      apply newRank_iff. destruct (newRank failed assigned (pos spare p)); [eauto|discriminate].
  - intros p Hp. apply E_In in Hp. destruct Hp as (Hp & _). rewrite (at_pos _ _ Hp). unfold keyP. destruct (isIn p W) eqn:EW; [|reflexivity].
    apply (i_rank n s HI). now apply isIn_iff.
Qed.
Lemma all_enough : forallb (fun r => isIn (at_ spare r) W || match newRank failed assigned r with Some _ => true | None => false end || isIn r (skipn k reusable))
  (zrange 0 (zlen spare)) = true.
Proof.
  apply forallb_forall. intros r Hr. apply zrange_In in Hr. destruct (isIn (at_ spare r) W) eqn:EW; [reflexivity|]. apply isIn_false in EW. cbn [orb].
  assert (H : In r reusable) by (apply reusable_In; auto). rewrite split_reusable in H. apply in_app_or in H. destruct H as [H|H].
  - apply newRank_iff in H. destruct H as (f & ->). reflexivity.
  - apply orb_true_iff. right. now apply isIn_iff.
Qed.

(** The groups of the new world. *)
Lemma E_alive_at : forall r, 0 <= r < zlen W -> groupAlive n dead W (at_ W r) = true -> at_ E r = at_ W r.
Proof.
  intros r Hr HA. rewrite E_at by auto. apply e_alive; auto. destruct (dead (at_ W r)) eqn:HD; [|reflexivity].
  destruct r_len as (G & HG & HL & _). rewrite (dead_not_alive n W G Hn ltac:(lia) HL r_ndW dead r_dead _ HD) in HA. discriminate.
Qed.
Lemma joins_at : forall r, 0 <= r < zlen W -> negb (isIn (at_ E r) W && groupAlive n dead W (at_ E r)) = negb (groupAlive n dead W (at_ W r)).
Proof.
  intros r Hr. rewrite E_at by auto. destruct (dead (at_ W r)) eqn:HD.
  - destruct (e_dead_spare r Hr HD) as (H1 & _). apply in_spares in H1. rewrite (proj2 (isIn_false _ _) (proj2 H1)). cbn [andb negb].
    destruct r_len as (G & HG & HL & _). rewrite (dead_not_alive n W G Hn ltac:(lia) HL r_ndW dead r_dead _ HD). reflexivity.
  - rewrite e_alive by auto. rewrite (proj2 (isIn_iff _ _) (at_In W r Hr)). reflexivity.
Qed.
Lemma alive_at : forall G r, zlen W = G * n + 1 -> 0 < G -> 0 <= r < G * n ->
  groupAlive n dead W (at_ W r) = negb (groupFailed n dead W (r / n)).
Proof.
  intros G r HL HG Hr. unfold groupAlive. rewrite pos_at by (try exact r_ndW; lia). destruct (r =? zlen W - 1) eqn:EQ; [apply Z.eqb_eq in EQ; lia|reflexivity].
Qed.
Lemma block_E : forall G g, zlen W = G * n + 1 -> 0 < G -> 0 <= g < G -> groupFailed n dead W g = false -> block n E g = block n W g.
Proof.
  intros G g HL HG Hg HF2. assert (HLE : zlen E = G * n + 1) by (rewrite E_len; exact HL).
  apply at_ext; [rewrite (block_len n E G), (block_len n W G); auto; lia|]. intros j Hj. rewrite (block_len n E G) in Hj by (auto; lia).
  rewrite (block_at n E G), (block_at n W G) by (auto; lia). assert (0 <= g * n + j < G * n) by nia. apply E_alive_at; [lia|].
  rewrite (alive_at G) by (auto; lia). assert ((g * n + j) / n = g) as -> by (symmetry; apply Z.div_unique with (r := j); lia). now rewrite HF2.
Qed.
Lemma local_enough : forall p, In p E -> p <> managerOf s ->
  (if negb (isIn p W && groupAlive n dead W p) && isIn p E
   then commSplit E (fun r => if negb (isIn (at_ E r) W && groupAlive n dead W (at_ E r)) then localColor n r else None) (localKey n)
          ((if isIn p E then pos E p else pos spare p) / n)
   else fLocal s p) = block n E (pos E p / n).
Proof.
  intros p Hp Hm. destruct r_len as (G & HG & HL & _). rewrite (proj2 (isIn_iff _ _) Hp). rewrite andb_true_r.
  assert (HLE : zlen E = G * n + 1) by (rewrite E_len; exact HL). pose proof (pos_range _ _ Hp) as R. set (r := pos E p) in *.
  assert (Er : at_ E r = p) by (apply at_pos; exact Hp).
  assert (Hrm : r <> G * n).
  { intros Heq. apply Hm. rewrite <- Er. destruct r_manager as (M1 & M2 & M3). unfold managerOf. fold W. rewrite E_at by lia. rewrite Heq. replace (zlen W - 1) with (G * n) by lia.
    apply e_alive; [lia|]. unfold managerOf in M2. fold W in M2. replace (zlen W - 1) with (G * n) in M2 by lia. exact M2. }
  assert (Hg : 0 <= r / n < G) by (split; [apply Z.div_pos; lia|apply Z.div_lt_upper_bound; lia]).
  pose proof (Z.div_mod r n ltac:(lia)) as DM. pose proof (Z.mod_pos_bound r n Hn) as MB.
  assert (J : negb (isIn p W && groupAlive n dead W p) = groupFailed n dead W (r / n)).
  { rewrite <- Er at 1 2. rewrite joins_at by lia. rewrite (alive_at G) by (auto; lia). apply negb_involutive. }
  rewrite J. destruct (groupFailed n dead W (r / n)) eqn:GF.
  - apply commSplit_eq with (keyP := fun q => localKey n (pos E q)); [exact E_NoDup| |reflexivity|].
    + intros q. rewrite (block_In n E G Hn ltac:(lia) HLE E_NoDup (r / n) q Hg). split.
      * intros (H1 & H2). split; [exact H1|]. pose proof (pos_range _ _ H1). rewrite joins_at by (rewrite <- E_len; lia).
        assert (HQ : pos E q / n = r / n) by (symmetry; apply Z.div_unique with (r := pos E q - r / n * n); lia).
        rewrite (alive_at G) by (auto; nia). rewrite HQ, GF. cbn [negb]. unfold localColor. now rewrite HQ.
      * intros (H1 & H2). split; [exact H1|]. pose proof (pos_range _ _ H1) as RQ. destruct (negb _) in H2; [|discriminate]. unfold localColor in H2. inversion H2 as [HQ].
        pose proof (Z.div_mod (pos E q) n ltac:(lia)). pose proof (Z.mod_pos_bound (pos E q) n Hn). rewrite HQ. nia.
    + assert (HB : forall q, In q (block n E (r / n)) -> pos E q / n = r / n).
      { intros q Hq. apply (block_In n E G Hn ltac:(lia) HLE E_NoDup) in Hq; auto. symmetry. apply Z.div_unique with (r := pos E q - r / n * n); lia. }
      assert (HS : StronglySorted (fun p q => pos E p < pos E q) (block n E (r / n))).
      { unfold block. apply sorted_firstn, sorted_skipn, pos_sorted, E_NoDup. }
      assert (G1 : forall m, incl m (block n E (r / n)) -> StronglySorted (fun p q => pos E p < pos E q) m ->
        StronglySorted (fun p q => localKey n (pos E p) < localKey n (pos E q)) m).
      { induction m as [|x m IH]; intros HIn H; [constructor|]. apply StronglySorted_inv in H; destruct H as (S1 & F1). constructor.
        - apply IH; [|exact S1]. intros y Hy. apply HIn. now right.
        - rewrite Forall_forall in *. intros y Hy. specialize (F1 y Hy). unfold localKey. rewrite (HB x), (HB y); [lia| |]; apply HIn; [now right|now left]. }
      apply G1; [intros y Hy; exact Hy|exact HS].
  - rewrite (block_E G) by auto. assert (HA : isIn p W = true /\ groupAlive n dead W p = true) by (apply negb_false_iff, andb_true_iff in J; exact J).
    destruct HA as (HA1 & HA2). apply isIn_iff in HA1. assert (HP : at_ W r = p).
    { rewrite <- E_alive_at; [exact Er|lia|]. rewrite (alive_at G) by (auto; lia). now rewrite GF. }
    rewrite (i_local n s HI p HA1 Hm). fold W. rewrite <- HP at 1. rewrite pos_at by (try exact r_ndW; lia). reflexivity.
Qed.

Lemma manager_E : at_ E (zlen E - 1) = managerOf s.
Proof.
  destruct r_manager as (M1 & M2 & M3). rewrite E_len. pose proof (pos_range _ _ M1) as R. rewrite M3 in R. rewrite E_at by lia.
  rewrite e_alive; [reflexivity|lia|exact M2].
Qed.
Lemma recover_enough : exists s', recover n dead o s = Some (s', false) /\ ftInv n s' /\ fSpare s' = spare /\ zlen (fWorld s') = zlen W /\
  (forall r, 0 <= r < zlen W -> if dead (at_ W r) then In (at_ (fWorld s') r) (sparesOf s) else at_ (fWorld s') r = at_ W r) /\
  fMasters s' = fMasters s.
Proof.
  destruct r_len as (G & HG & HL & HMas). rewrite recover_outcome. rewrite (proj2 (Z.leb_le _ _) HE). unfold outcome. cbv zeta.
  fold assigned. rewrite all_enough, split_enough. cbn [negb]. rewrite E_len, HL. replace (G * n + 1 - 1) with (G * n) by lia.
  rewrite Z.mod_mul by lia. cbn [Z.eqb]. eexists. split; [reflexivity|]. cbn [fSpare fWorld fMasters].
  split; [|split; [reflexivity|split; [rewrite E_len; exact HL|split; [|reflexivity]]]].
  2:{ intros r Hr. rewrite <- HL in Hr. rewrite E_at by exact Hr. destruct (dead (at_ W r)) eqn:HD; [now apply e_dead_spare|now apply e_alive]. }
  constructor; cbn [fSpare fWorld fMasters fRank fReusable fLocal].
  - exact r_nds.
  - exact E_NoDup.
  - intros p Hp. now apply E_In in Hp.
  - exists G. rewrite E_len. auto.
  - unfold managerOf. cbn [fWorld]. rewrite manager_E. exact (proj2 r_last).
  - intros p Hp. now rewrite (proj2 (isIn_iff _ _) Hp).
  - rewrite app_nil_r. apply NoDup_Permutation.
    + pose proof reusable_NoDup as H. rewrite split_reusable in H. revert H. generalize assigned (skipn k reusable). intros a b.
      induction a as [|x a IH]; intros H; [exact H|]. cbn [app] in H. inversion H; subst. now apply IH.
    + apply NoDup_pos_map; [apply NoDup_filter, r_nds|]. intros p Hp. apply filter_In in Hp. tauto.
    + intros x. unfold sparesOf. cbn [fSpare fWorld]. rewrite in_map_iff. split.
      * intros Hx. assert (Hxr : In x reusable) by (rewrite split_reusable; apply in_or_app; now right). pose proof (proj1 (reusable_In x) Hxr) as (R1 & R2).
        exists (at_ spare x). pose proof (pos_at spare x r_nds R1) as PA. split; [exact PA|]. apply filter_In. split; [now apply at_In|].
        apply negb_true_iff, isIn_false. rewrite E_In. intros (_ & [H|H]); [contradiction|]. rewrite PA in H.
        pose proof reusable_NoDup as ND. rewrite split_reusable in ND. clear - H Hx ND. revert H Hx ND. generalize assigned (skipn k reusable). intros a b.
        induction a as [|y a IH]; intros H Hx ND; [destruct H|]. cbn [app] in ND. inversion ND as [|? ? N1 N2]; subst. destruct H as [->|H].
        -- apply N1, in_or_app. now right.
        -- now apply IH.
      * intros (p & <- & Hp). apply filter_In in Hp. destruct Hp as (H1 & H2). apply negb_true_iff, isIn_false in H2.
        assert (H3 : In (pos spare p) reusable). { apply reusable_In. rewrite (at_pos _ _ H1). split; [now apply pos_range|]. intros H. apply H2, E_In. auto. }
        rewrite split_reusable in H3. apply in_app_or in H3. destruct H3 as [H3|H3]; [|exact H3]. exfalso. apply H2, E_In. auto.
  - intros p Hp Hm. unfold managerOf in Hm. cbn [fWorld] in Hm. rewrite manager_E in Hm. exact (local_enough p Hp Hm).
Qed.
End Enough.

(** *** Not enough processes *)
Section TooFew.
Hypothesis HE : zlen (sparesOf s) < zlen failed.
Let E := filter (groupAlive n dead W) W.
Lemma newRank_nil : forall r, newRank failed [] r = None. Proof. intros r. now destruct failed. Qed.
Lemma E_In2 : forall p, In p E <-> In p W /\ groupAlive n dead W p = true. Proof. intros p. apply filter_In. Qed.
Lemma E_dead2 : forall p, In p E -> dead p = false.
Proof.
  intros p Hp. apply E_In2 in Hp. destruct (dead p) eqn:HD; [|reflexivity]. destruct r_len as (G & HG & HL & _).
  rewrite (dead_not_alive n W G Hn ltac:(lia) HL r_ndW dead r_dead _ HD) in Hp. now destruct Hp.
Qed.
Lemma split_few :
  commSplit spare (fun r => if isIn (at_ spare r) W then if groupAlive n dead W (at_ spare r) then Some 1 else if negb false then None else Some 1
                            else if match newRank failed [] r with Some _ => true | None => false end then Some 1 else None)
    (fun r => if isIn (at_ spare r) W then fRank s (at_ spare r) else match newRank failed [] r with Some f => f | None => r end) 1 = E.
Proof.
  apply commSplit_eq with (keyP := pos W); [exact r_nds| | |apply sorted_filter, pos_sorted, r_ndW].
  - intros p. rewrite E_In2. split.
    + intros (H1 & H2). assert (HS : In p spare) by (apply r_inW; [exact H1|apply E_dead2, E_In2; auto]). split; [exact HS|].
      rewrite (at_pos _ _ HS), (proj2 (isIn_iff _ _) H1), H2. reflexivity.
    + intros (H1 & H2). rewrite (at_pos _ _ H1) in H2. rewrite newRank_nil in H2. destruct (isIn p W) eqn:EW; [|discriminate]. apply isIn_iff in EW.
      destruct (groupAlive n dead W p); [auto|discriminate].
  - intros p Hp. pose proof (E_dead2 p Hp) as HD. apply E_In2 in Hp. rewrite (at_pos _ _ (r_inW p (proj1 Hp) HD)), (proj2 (isIn_iff _ _) (proj1 Hp)).
    now apply (i_rank n s HI).
Qed.
Lemma all_few : forallb (fun r => isIn (at_ spare r) W || match newRank failed [] r with Some _ => true | None => false end || isIn r reusable) (zrange 0 (zlen spare)) = true.
Proof.
  apply forallb_forall. intros r Hr. apply zrange_In in Hr. destruct (isIn (at_ spare r) W) eqn:EW; [reflexivity|]. apply isIn_false in EW.
  apply orb_true_iff. right. apply isIn_iff, reusable_In. auto.
Qed.
Lemma E_NoDup2 : NoDup E. Proof. apply NoDup_filter, r_ndW. Qed.

Lemma recover_few : exists s' G, recover n dead o s = Some (s', true) /\ ftInv n s' /\ fSpare s' = spare /\
  zlen W = G * n + 1 /\ fWorld s' = flat_map (block n W) (okGroups n W G dead) ++ [managerOf s] /\
  fMasters s' = zrange 0 (zlen (okGroups n W G dead)).
Proof.
  destruct r_len as (G & HG & HL & HMas). pose proof (alive_world n W G Hn ltac:(lia) HL r_ndW dead r_dead) as HW. fold E in HW.
  assert (HMgr : manager n W G = managerOf s) by (unfold manager, managerOf; fold W; rewrite HL; f_equal; lia). rewrite HMgr in HW.
  assert (HOK : forall g, In g (okGroups n W G dead) -> 0 <= g < G) by (apply ok_In).
  assert (HFL : zlen (flat_map (block n W) (okGroups n W G dead)) = zlen (okGroups n W G dead) * n) by (apply flat_block_len with (G := G); auto; lia).
  assert (HLE : zlen E = zlen (okGroups n W G dead) * n + 1) by (rewrite HW, zlen_app, HFL; reflexivity).
  assert (HPOS : 0 < zlen (okGroups n W G dead)).
  { destruct HF as (_ & HC). fold W in HC. unfold failedGroupIDs in HC. rewrite (numGroups_eq n W G Hn HL) in HC. unfold okGroups.
    assert (HS : forall l, zlen (filter (fun g => negb (groupFailed n dead W g)) l) = zlen l - zlen (filter (groupFailed n dead W) l)).
    { induction l as [|x l IH]; [reflexivity|]. cbn [filter]. destruct (groupFailed n dead W x); cbn [negb]; rewrite !zlen_cons, IH; lia. }
    rewrite HS, zlen_zrange by lia. lia. }
  rewrite recover_outcome. rewrite (proj2 (Z.leb_gt _ _) HE). unfold outcome. cbv zeta. rewrite all_few, split_few. cbn [negb].
  rewrite HLE. replace (zlen (okGroups n W G dead) * n + 1 - 1) with (zlen (okGroups n W G dead) * n) by lia.
  rewrite Z.mod_mul by lia. cbn [Z.eqb]. eexists. exists G. split; [reflexivity|]. cbn [fSpare fWorld fMasters].
  assert (HMM : zrange 0 (Z.of_nat (length (filter (fun g : Z => negb (groupFailed n dead W g)) (zrange 0 (zlen (fMasters s)))))) = zrange 0 (zlen (okGroups n W G dead))).
  { rewrite HMas, zlen_zrange by lia. reflexivity. }
  split; [|split; [reflexivity|split; [exact HL|split; [exact HW|exact HMM]]]].
  assert (HMG2 : at_ E (zlen E - 1) = managerOf s).
  { rewrite HW, zlen_app. rewrite at_app_r by (unfold zlen; cbn; lia). unfold zlen at 2. cbn [length]. match goal with |- at_ _ ?x = _ => replace x with 0 by lia end. reflexivity. }
  constructor; cbn [fSpare fWorld fMasters fRank fReusable fLocal].
  - exact r_nds.
  - exact E_NoDup2.
  - intros p Hp. apply r_inW; [now apply E_In2 in Hp|now apply E_dead2].
  - exists (zlen (okGroups n W G dead)). auto.
  - unfold managerOf at 1. cbn [fWorld]. rewrite HMG2. exact (proj2 r_last).
  - intros p Hp. now rewrite (proj2 (isIn_iff _ _) Hp).
  - assert (HP : Permutation (reusable ++ arrNew o (map (pos spare) left)) (map (pos spare) (sparesOf s ++ left))).
    { rewrite map_app. apply Permutation_app; [exact reusable_perm|exact (proj2 (proj2 (proj2 HO)) _)]. }
    apply (Permutation_trans HP). apply Permutation_map. unfold sparesOf at 2. cbn [fSpare fWorld]. apply NoDup_Permutation.
    + apply NoDup_app_intro; [unfold sparesOf; apply NoDup_filter, (i_nds n s HI)|apply NoDup_filter, r_ndW|].
      intros x H1 H2. apply in_spares in H1. apply left_In in H2. tauto.
    + apply NoDup_filter, r_nds.
    + intros p. rewrite in_app_iff, in_spares, left_In, filter_In, negb_true_iff, isIn_false, E_In2. split.
      * intros [(H1 & H2)|(H1 & H2 & H3)]; [split; [exact H1|tauto]|]. split; [now apply r_inW|]. rewrite H3. intros (_ & H). discriminate.
      * intros (H1 & H2). destruct (in_dec Z.eq_dec p W) as [HpW|HpW]; [right|left; auto]. split; [exact HpW|]. split.
        -- unfold spare in H1. apply filter_In in H1. now apply negb_true_iff.
        -- destruct (groupAlive n dead W p); [exfalso; auto|reflexivity].
  - intros p Hp Hm. unfold managerOf in Hm. cbn [fWorld] in Hm. rewrite HMG2 in Hm. pose proof (proj1 (E_In2 p) Hp) as (HpW & HpA).
    rewrite (proj2 (isIn_iff _ _) HpW), HpA. cbn [andb negb]. rewrite (i_local n s HI p HpW Hm). fold W.
    pose proof (pos_range _ _ Hp) as R. set (r := pos E p) in *. assert (Er : at_ E r = p) by (apply at_pos; exact Hp).
    assert (Hrm : r <> zlen E - 1) by (intros Heq; apply Hm; rewrite <- Er, Heq; exact HMG2).
    pose proof (Z.div_mod r n ltac:(lia)) as DM. pose proof (Z.mod_pos_bound r n Hn) as MB. set (K := zlen (okGroups n W G dead)) in *.
    assert (Hi : 0 <= r / n < K) by (split; [apply Z.div_pos; lia|apply Z.div_lt_upper_bound; lia]).
    assert (AT : forall i j, 0 <= i < K -> 0 <= j < n -> at_ E (i * n + j) = at_ W (at_ (okGroups n W G dead) i * n + j)).
    { intros i j Hii Hj. rewrite HW. rewrite at_app_l by (rewrite HFL; nia). apply flat_block_at with (G := G); auto; lia. }
    pose proof (HOK _ (at_In (okGroups n W G dead) (r / n) Hi)) as HOKr. set (g := at_ (okGroups n W G dead) (r / n)) in *.
    assert (HP : p = at_ W (g * n + r mod n)) by (rewrite <- Er; replace r with (r / n * n + r mod n) at 1 by lia; apply AT; auto).
    assert (Hpg : pos W p / n = g).
    { rewrite HP, pos_at by (try exact r_ndW; rewrite HL; nia). symmetry. apply Z.div_unique with (r := r mod n); lia. }
    rewrite Hpg. apply at_ext; [rewrite (block_len n W G), (block_len n E K); auto; lia|]. intros j Hj. rewrite (block_len n W G) in Hj by (auto; lia).
    rewrite (block_at n W G), (block_at n E K) by (auto; lia). symmetry. apply AT; auto.
Qed.
End TooFew.
End Recover.

Lemma ftInv_init : forall ngroup nprocs, 0 < ngroup -> 0 < nprocs -> ftInv nprocs (ftInit ngroup nprocs).
Proof.
  intros G n HG Hn. assert (HL : zlen (zrange 0 (G * n + 1)) = G * n + 1) by (apply zlen_zrange; nia).
  assert (HP : forall p, In p (zrange 0 (G * n + 1)) -> pos (zrange 0 (G * n + 1)) p = p).
  { intros p Hp. apply zrange_In in Hp. rewrite <- (at_zrange (G * n + 1) p) at 1 by lia. apply pos_at; [apply zrange_NoDup|rewrite HL; lia]. }
  assert (HM : managerOf (ftInit G n) = G * n) by (unfold managerOf, ftInit; cbn [fWorld]; rewrite HL, at_zrange; nia).
  constructor; unfold ftInit; cbv zeta; cbn [fSpare fWorld fMasters fRank fReusable fLocal].
  - apply zrange_NoDup.
  - apply zrange_NoDup.
  - intros p H. exact H.
  - exists G. auto.
  - change (exists l, zrange 0 (G * n + 1) = l ++ [managerOf (ftInit G n)]). rewrite HM. exists (zrange 0 (G * n)). rewrite zrange_snoc by nia.
    replace (G * n + 1 - 1) with (G * n) by lia. reflexivity.
  - intros p Hp. symmetry. now apply HP.
  - unfold sparesOf. cbn [fSpare fWorld]. rewrite filter_none; [constructor|]. intros x Hx. now rewrite (proj2 (isIn_iff _ _) Hx).
  - intros p Hp Hm. change (p <> managerOf (ftInit G n)) in Hm. rewrite HM in Hm. rewrite (HP p Hp). pose proof Hp as Hp2. apply zrange_In in Hp2.
    assert (Hg : 0 <= p / n < G) by (split; [apply Z.div_pos; lia|apply Z.div_lt_upper_bound; lia]). unfold localComm, worldComm.
    set (W := zrange 0 (G * n + 1)) in *. assert (NDW : NoDup W) by apply zrange_NoDup.
    apply commSplit_eq with (keyP := fun q => localKey n (pos W q)); [exact NDW| |reflexivity|].
    + intros q. rewrite (block_In n W G Hn ltac:(lia) HL NDW (p / n) q Hg). unfold localColor. split.
      * intros (H1 & H2). split; [exact H1|]. f_equal. symmetry. apply Z.div_unique with (r := pos W q - p / n * n); lia.
      * intros (H1 & H2). split; [exact H1|]. inversion H2 as [HQ]. pose proof (Z.div_mod (pos W q) n ltac:(lia)). pose proof (Z.mod_pos_bound (pos W q) n Hn). rewrite HQ. nia.
    + assert (HB : forall q, In q (block n W (p / n)) -> pos W q / n = p / n).
      { intros q Hq. apply (block_In n W G Hn ltac:(lia) HL NDW) in Hq; auto. symmetry. apply Z.div_unique with (r := pos W q - p / n * n); lia. }
      assert (G1 : forall m, incl m (block n W (p / n)) -> StronglySorted (fun p q => pos W p < pos W q) m ->
        StronglySorted (fun p q => localKey n (pos W p) < localKey n (pos W q)) m).
      { induction m as [|x m IH]; intros HIn H; [constructor|]. apply StronglySorted_inv in H; destruct H as (S1 & F1). constructor.
        - apply IH; [|exact S1]. intros y Hy. apply HIn. now right.
        - rewrite Forall_forall in *. intros y Hy. specialize (F1 y Hy). unfold localKey. rewrite (HB x), (HB y); [lia| |]; apply HIn; [now right|now left]. }
      apply G1; [intros y Hy; exact Hy|]. unfold block. apply sorted_firstn, sorted_skipn, pos_sorted, NDW.
Qed.

Lemma reach_inv : forall ngroup nprocs s, 0 < ngroup -> 0 < nprocs -> ftReachable ngroup nprocs s -> ftInv nprocs s.
Proof.
  intros ngroup n s HG Hn HR. induction HR as [|s dead o s' b HR IH HF HO HE]; [now apply ftInv_init|].
  destruct (Z_le_gt_dec (zlen (arrFailed o (map (fRank s) (filter dead (fWorld s))))) (zlen (sparesOf s))) as [H|H].
  - destruct (recover_enough n s dead o Hn IH HF HO H) as (s2 & E2 & I2 & _). congruence.
  - destruct (recover_few n s dead o Hn IH HF HO ltac:(lia)) as (s2 & G & E2 & I2 & _). congruence.
Qed.
