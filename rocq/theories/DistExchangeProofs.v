(** Proofs about DistHierModel.v: what is sent is what is expected. *)
From Verif Require Import Base TensorModel PartitionModel PartitionProofs DecompModel DecompProofs DofModel DofProofs Level1dModel
  Level1dProofs DistHierModel DistHierProofs.
Ltac Zify.zify_post_hook ::= idtac.

Lemma in_shifts : forall (f : Z -> idxMap) y, In y (flat_map f [-1; 1]) <-> exists e, (e = 1 \/ e = -1) /\ In y (f e).
Proof.
  intros f y. simpl. rewrite app_nil_r, in_app_iff. split.
  - intros [H | H]; [exists (-1)|exists 1]; auto.
  - intros (e & [-> | ->] & H); auto.
Qed.

Section Exchange.
Variables (b L lmin n : Z) (dec1 : list Z).
Hypothesis Hb : 0 <= b <= 2.
Hypothesis HL : 0 <= lmin < L.
Hypothesis HL28 : L <= 28.
Hypothesis Hn : n = 2 ^ L + b - 1.
Hypothesis HV : validDec1 dec1 n.

Notation pos := (gridPos b).
Notation owner := (neighbor1dPartition dec1 n).
Notation isPart c := (0 <= c < Z.of_nat (length dec1)).

Lemma pos_diff : forall i j, pos i - pos j = i - j.
Proof. intros i j. unfold gridPos. destruct (b =? 0); lia. Qed.

Lemma pos_add : forall i d, pos (i + d) = pos i + d.
Proof. intros i d. unfold gridPos. destruct (b =? 0); lia. Qed.

Lemma pos_range : forall i, 0 <= i < n -> 0 <= pos i <= 2 ^ L.
Proof. intros i Hi. apply numDof_range; lia. Qed.

Lemma pow_table : forall l, 0 <= l <= L -> powerOfTwo (L - l) = 2 ^ (L - l).
Proof. intros l Hl. apply powerOfTwo_spec. lia. Qed.

(** Indices that exist, or the virtual last index of one-sided grids. *)
Definition ext (r : Z) : Prop := 0 <= r < n \/ (b = 1 /\ r = n).

Lemma ext_range : forall r, ext r -> 0 <= pos r <= 2 ^ L.
Proof.
  intros r [H | [H ->]]; [now apply pos_range|]. unfold gridPos. rewrite H. simpl. pose proof (pow2_pos L). lia.
Qed.

Lemma pos_n : b = 1 -> pos n = 2 ^ L.
Proof. intros H. unfold gridPos. rewrite H. simpl. lia. Qed.

Lemma lev_idx : forall i, 0 <= i < n -> 0 <= lev L (pos i) <= L.
Proof. intros i Hi. apply lev_range; [lia|]. now apply pos_range. Qed.

Lemma owner_iff : forall t q, (owner t >= 0 /\ owner t = q) <-> (0 <= t < n /\ owner t = q).
Proof.
  intros t q. split; intros [H E]; split; auto.
  - unfold neighbor1dPartition in H. destruct (Z.ltb_spec t 0); [lia|]. destruct (Z.ltb_spec (n - 1) t); lia.
  - pose proof (neighbor1dPartition_spec dec1 n t HV H). lia.
Qed.

Lemma addFor_In : forall t idx q i, In (q, i) (addFor dec1 n t idx) <-> i = idx /\ 0 <= t < n /\ owner t = q.
Proof.
  intros t idx q i. unfold addFor. pose proof (owner_iff t q) as O. rewrite <- O. rewrite Z.geb_leb.
  destruct (Z.leb_spec 0 (owner t)); simpl.
  - split; [intros [E | []]; inv E; split; [auto|split; [lia|auto]]|].
    intros (-> & _ & E). left. congruence.
  - split; [intros []|]. lia.
Qed.

Lemma part_range : forall c, isPart c -> 0 <= firstIdx dec1 c <= lastIdx dec1 n c /\ lastIdx dec1 n c < n.
Proof. intros c Hc. pose proof (validDec1_range dec1 n c HV Hc). unfold firstIdx, lastIdx, lo1, up1 in *. lia. Qed.

Lemma owner_local : forall c x, isPart c -> 0 <= x < n -> (owner x = c <-> firstIdx dec1 c <= x <= lastIdx dec1 n c).
Proof.
  intros c x Hc Hx. pose proof (neighbor1dPartition_spec dec1 n x HV Hx) as [H1 H2]. split.
  - intros <-. unfold firstIdx, lastIdx, lo1, up1 in *. lia.
  - intros H. apply (owner1_unique dec1 n (owner x) c x HV); auto. unfold firstIdx, lastIdx, lo1, up1 in *. lia.
Qed.

Lemma owner_part : forall x, 0 <= x < n -> isPart (owner x).
Proof. intros x Hx. apply (neighbor1dPartition_spec dec1 n x HV Hx). Qed.

Lemma n_pos : 0 < n.
Proof. pose proof (Z.pow_le_mono_r 2 1 L). change (2 ^ 1) with 2 in *. lia. Qed.

(** ** The meaning of both sides, for a relation between points and the points they need *)

Definition recvOk (c o i r : Z) : Prop :=
  (0 <= r < n /\ (r < firstIdx dec1 c \/ lastIdx dec1 n c < r) /\ i = r /\ o = owner r) \/
  (b = 1 /\ r = n /\ 0 < firstIdx dec1 c /\ i = 0 /\ o = owner 0).

Definition recvSpec (Rel : Z -> Z -> Prop) (c o i : Z) : Prop :=
  exists x r, firstIdx dec1 c <= x <= lastIdx dec1 n c /\ ext r /\ Rel (pos x) (pos r) /\ recvOk c o i r.

Definition sendSpec (Rel : Z -> Z -> Prop) (c q i : Z) : Prop :=
  firstIdx dec1 c <= i <= lastIdx dec1 n c /\
  exists x, 0 <= x < n /\ owner x = q /\ ~ (firstIdx dec1 c <= x <= lastIdx dec1 n c) /\
            (Rel (pos x) (pos i) \/ (b = 1 /\ i = 0 /\ Rel (pos x) (pos n))).

Lemma specs_match : forall Rel c q i, isPart c -> isPart q -> (sendSpec Rel c q i <-> recvSpec Rel q c i).
Proof.
  intros Rel c q i Hc Hq. pose proof (part_range c Hc) as Pc. pose proof (part_range q Hq) as Pq. split.
  - intros [Hi (x & Hx & Ox & Nx & HR)].
    pose proof (proj1 (owner_local q x Hq Hx) Ox) as Lx.
    assert (Hi' : 0 <= i < n) by lia.
    pose proof (proj2 (owner_local c i Hc Hi') Hi) as Oi.
    assert (Ni : ~ (firstIdx dec1 q <= i <= lastIdx dec1 n q)).
    { intros H. apply (owner_local q i Hq Hi') in H. assert (E : q = c) by congruence. rewrite E in Lx. tauto. }
    destruct HR as [HR | (B & -> & HR)].
    + exists x, i. split; auto. split; [left; auto|]. split; auto. left. repeat split; try lia; auto.
    + exists x, n. split; auto. split; [right; auto|]. split; auto. right. repeat split; try lia; auto.
  - intros (x & r & Lx & Er & HR & [(Hr & Nr & -> & Or) | (B & -> & F & -> & Or)]).
    + assert (Hx : 0 <= x < n) by lia.
      pose proof (proj1 (owner_local c r Hc Hr) (eq_sym Or)) as Lr. split; auto.
      exists x. split; auto. split; [now apply owner_local|]. split; auto.
      intros H. apply (owner_local c x Hc Hx) in H. apply (owner_local q x Hq Hx) in Lx. assert (E : c = q) by congruence.
      rewrite E in Lr. lia.
    + assert (Hx : 0 <= x < n) by lia. pose proof n_pos.
      pose proof (proj1 (owner_local c 0 Hc ltac:(lia)) (eq_sym Or)) as Lr. split; auto.
      exists x. split; auto. split; [now apply owner_local|]. split; [|right; auto].
      intros H'. apply (owner_local c x Hc Hx) in H'. apply (owner_local q x Hq Hx) in Lx. assert (E : c = q) by congruence.
      rewrite E in Lr. lia.
Qed.

(** ** The loops *)

Lemma nextIndex_spec : forall last i, 0 <= i < n -> (lev L (pos i) < L \/ last <= i) -> nextIndex1d b L last i = i + 1.
Proof.
  intros last i Hi H. unfold nextIndex1d. destruct (Z_le_gt_dec last i).
  - rewrite zrange_nil by lia. reflexivity.
  - rewrite zrange_cons by lia. simpl. rewrite !getLevel_lev, pos_add.
    pose proof (succ_lev L lmin HL (pos i) L 1 (pos_range i Hi) ltac:(lia) ltac:(auto)) as E.
    rewrite Z.sub_diag in E. change (1 * 2 ^ 0) with 1 in E. rewrite E, Z.eqb_refl. reflexivity.
Qed.

Definition rightPred (i : Z) : Z := i + 2 ^ (L - lev L (pos i)).

Lemma rightPred_gt : forall i, 0 <= i < n -> i < rightPred i.
Proof. intros i Hi. unfold rightPred. pose proof (lev_idx i Hi). pose proof (pow2_pos (L - lev L (pos i))). lia. Qed.

Lemma rightPred_finest : forall i, lev L (pos i) = L -> rightPred i = i + 1.
Proof. intros i E. unfold rightPred. rewrite E, Z.sub_diag. reflexivity. Qed.

Lemma hierNext_spec : forall last i, 0 <= i < n ->
  hierNext b L last i = i + 1 \/ (hierNext b L last i = rightPred i /\ rightPred i <= last).
Proof.
  intros last i Hi. unfold hierNext. rewrite getLevel_lev. pose proof (lev_idx i Hi).
  rewrite pow_table by lia. fold (rightPred i).
  destruct (Z.eqb_spec (lev L (pos i)) 0); simpl.
  - left. apply nextIndex_spec; lia.
  - rewrite Z.gtb_ltb. destruct (Z.ltb_spec last (rightPred i)); [|right; split; auto; lia].
    left. apply nextIndex_spec; auto. destruct (Z.eq_dec (lev L (pos i)) L) as [E|]; [|lia].
    rewrite (rightPred_finest i E) in *. lia.
Qed.

(** Points that the loop does not visit lie strictly between a visited point and its right predecessor, which is
    visited as well. *)
Lemma loop_cover : forall next c, isPart c ->
  (forall i, firstIdx dec1 c <= i <= lastIdx dec1 n c ->
     next i = i + 1 \/ (next i = rightPred i /\ rightPred i <= lastIdx dec1 n c)) ->
  let vs := visited next (Z.to_nat (lastIdx dec1 n c - firstIdx dec1 c + 1)) (lastIdx dec1 n c) (firstIdx dec1 c) in
  (forall x, In x vs -> firstIdx dec1 c <= x <= lastIdx dec1 n c) /\
  (forall x, firstIdx dec1 c <= x <= lastIdx dec1 n c -> In x vs \/
     exists v, In v vs /\ In (rightPred v) vs /\ v < x < rightPred v /\ rightPred v <= lastIdx dec1 n c) /\
  (forall v, In v vs -> next v = rightPred v -> rightPred v <= lastIdx dec1 n c -> In (rightPred v) vs).
Proof.
  intros next c Hc H vs. pose proof (part_range c Hc) as P.
  destruct (visited_cover next (lastIdx dec1 n c) (Z.to_nat (lastIdx dec1 n c - firstIdx dec1 c + 1)) (firstIdx dec1 c))
    as (R & C & S); [lia| |].
  { intros i Hi. destruct (H i Hi) as [-> | [-> _]]; [lia|]. apply rightPred_gt. lia. }
  fold vs in R, C, S. split; [auto|]. split.
  - intros x Hx. destruct (C x Hx) as (v & Hv & Hv2). destruct (Z.eq_dec v x) as [->|]; [auto|].
    destruct (H v (R v Hv)) as [E | [E E2]]; [lia|]. right. exists v. rewrite E in Hv2. split; auto. split; [|lia].
    rewrite <- E. apply S; auto. lia.
  - intros v Hv E Hl. rewrite <- E. apply S; auto. lia.
Qed.

(** ** exchangeData1d *)

Lemma hierSends_In : forall c idx q i, isPart c -> firstIdx dec1 c <= idx <= lastIdx dec1 n c ->
  (In (q, i) (hierSends b L lmin dec1 n (firstIdx dec1 c) (lastIdx dec1 n c) idx) <->
   i = idx /\ exists x, 0 <= x < n /\ owner x = q /\ ~ (firstIdx dec1 c <= x <= lastIdx dec1 n c) /\
     (Dir L lmin (pos x) (pos idx) \/ (b = 1 /\ idx = 0 /\ Dir L lmin (pos x) (pos n)))).
Proof.
  intros c idx q i Hc Hi. pose proof (part_range c Hc) as P. assert (Hi0 : 0 <= idx < n) by lia.
  pose proof (lev_idx idx Hi0) as Lr. pose proof (pos_range idx Hi0) as Pr.
  unfold hierSends. rewrite in_flat_map. split.
  - intros (l & Hl & H). rewrite getLevel_lev in Hl. apply zrange_In in Hl.
    rewrite Z.gtb_ltb in H. destruct (Z.ltb_spec lmin l) as [Hm|]; [|destruct H].
    apply in_shifts in H. destruct H as (e & He & H). cbv zeta in H. rewrite pow_table in H by lia.
    pose proof (pow2_pos (L - l) ltac:(lia)) as Pl.
    apply in_app_iff in H. destruct H as [H | H].
    + destruct ((e <? 0) && (idx + e * 2 ^ (L - l) >=? 0) && (idx + e * 2 ^ (L - l) <? firstIdx dec1 c) ||
                (e >? 0) && (idx + e * 2 ^ (L - l) >? lastIdx dec1 n c) && (idx + e * 2 ^ (L - l) <? n))%bool eqn:C;
        [|destruct H].
      apply addFor_In in H. destruct H as (-> & Hs & Os). split; auto.
      exists (idx + e * 2 ^ (L - l)). split; auto. split; auto. split.
      * rewrite orb_true_iff, !andb_true_iff, Z.geb_leb, !Z.gtb_ltb, !Z.ltb_lt, Z.leb_le in C. lia.
      * left. pose proof (succ_lev L lmin HL (pos idx) l e Pr ltac:(lia) He) as E.
        unfold Dir. rewrite pos_add, E. split; [lia|]. destruct He as [-> | ->]; lia.
    + destruct ((b =? 1) && (idx =? 0) && (idx + e * 2 ^ (L - l) <? 0))%bool eqn:C; [|destruct H].
      rewrite !andb_true_iff, Z.ltb_lt, !Z.eqb_eq in C. destruct C as ((B & ->) & Hneg).
      rewrite Z.gtb_ltb in H.
      destruct (Z.ltb_spec (lastIdx dec1 n c) (n + (0 + e * 2 ^ (L - l)))); [|destruct H].
      apply addFor_In in H. destruct H as (-> & Hs & Os). split; auto.
      exists (n + (0 + e * 2 ^ (L - l))). split; auto. split; auto. split; [lia|].
      right. split; auto. split; auto. assert (e = -1) as -> by lia.
      pose proof (pos_n B) as Pn. assert (Hz : lev L (2 ^ L) = 0) by (apply lev_zero; lia).
      pose proof (succ_lev L lmin HL (2 ^ L) l (-1) ltac:(lia) ltac:(lia) ltac:(auto)) as E.
      unfold Dir. rewrite Z.add_0_l, pos_add, Pn, E. split; lia.
  - intros (-> & x & Hx & Ox & Nx & HR). pose proof (lev_idx x Hx) as Lx. pose proof (pos_range x Hx) as Px.
    destruct HR as [D | (B & -> & D)].
    + pose proof (proj1 (dir_pred L lmin HL _ _) D) as [Hm (e & He & E)].
      pose proof (pred_lev L lmin HL (pos x) e Px ltac:(lia) He) as PL. cbv zeta in PL. rewrite <- E in PL.
      specialize (PL Pr).
      exists (lev L (pos x)). split; [rewrite getLevel_lev; apply zrange_In; lia|].
      rewrite Z.gtb_ltb. destruct (Z.ltb_spec lmin (lev L (pos x))); [|lia].
      apply in_shifts. exists (- e). split; [lia|]. cbv zeta. rewrite pow_table by lia.
      pose proof (pow2_pos (L - lev L (pos x)) ltac:(lia)) as Pl. pose proof (pos_diff x idx) as PD.
      apply in_app_iff. left.
      assert (Es : idx + - e * 2 ^ (L - lev L (pos x)) = x) by lia. rewrite Es.
      assert (((- e <? 0) && (x >=? 0) && (x <? firstIdx dec1 c) ||
                (- e >? 0) && (x >? lastIdx dec1 n c) && (x <? n))%bool = true) as ->.
      { rewrite orb_true_iff, !andb_true_iff, Z.geb_leb, !Z.gtb_ltb, !Z.ltb_lt, Z.leb_le.
        set (w := 2 ^ (L - lev L (pos x))) in *. clearbody w. destruct He as [-> | ->]; lia. }
      apply addFor_In. auto.
    + pose proof (pos_n B) as Pn. rewrite Pn in D.
      pose proof (proj1 (dir_pred L lmin HL _ _) D) as [Hm (e & He & E)].
      assert (Hx' : pos x = x) by (unfold gridPos; rewrite B; reflexivity).
      assert (Nn : n = 2 ^ L) by lia.
      pose proof (pow2_pos (L - lev L (pos x)) ltac:(lia)) as Pl.
      assert (e = 1) as -> by (destruct He as [-> | ->]; lia).
      exists (lev L (pos x)). assert (Hz : lev L (pos 0) = 0) by (unfold gridPos; rewrite B; reflexivity).
      split; [rewrite getLevel_lev; apply zrange_In; lia|].
      rewrite Z.gtb_ltb. destruct (Z.ltb_spec lmin (lev L (pos x))); [|lia].
      apply in_shifts. exists (- 1). split; [lia|]. cbv zeta. rewrite pow_table by lia.
      apply in_app_iff. right. rewrite (proj2 (Z.eqb_eq b 1) B), !Z.eqb_refl. cbn [andb].
      destruct (Z.ltb_spec (0 + -1 * 2 ^ (L - lev L (pos x))) 0); [|lia].
      assert (n + (0 + -1 * 2 ^ (L - lev L (pos x))) = x) as -> by lia.
      rewrite Z.gtb_ltb. destruct (Z.ltb_spec (lastIdx dec1 n c) x); [|lia].
      apply addFor_In. auto.
Qed.

Lemma hierRecvs_In : forall c idx o i, isPart c -> firstIdx dec1 c <= idx <= lastIdx dec1 n c ->
  (In (o, i) (hierRecvs b L lmin dec1 n (firstIdx dec1 c) (lastIdx dec1 n c) c idx) <->
   exists r, ext r /\ Dir L lmin (pos idx) (pos r) /\ recvOk c o i r).
Proof.
  intros c idx o i Hc Hi. pose proof (part_range c Hc) as P. assert (Hi0 : 0 <= idx < n) by lia.
  pose proof (lev_idx idx Hi0) as Lr. pose proof (pos_range idx Hi0) as Pr. pose proof n_pos as Np.
  assert (O0 : owner 0 = c <-> firstIdx dec1 c = 0). { rewrite (owner_local c 0 Hc) by lia. lia. }
  pose proof (owner_part 0 ltac:(lia)) as Op.
  unfold hierRecvs. rewrite getLevel_lev, Z.gtb_ltb. cbv zeta.
  destruct (Z.ltb_spec lmin (lev L (pos idx))) as [Hm|].
  2: { split; [intros []|]. intros (r & _ & [D _] & _). lia. }
  rewrite in_shifts. rewrite pow_table by lia. pose proof (pow2_pos (L - lev L (pos idx)) ltac:(lia)) as Pl.
  split.
  - intros (e & He & H). apply in_app_iff in H. destruct H as [H | H].
    + destruct ((lev L (pos idx) >? 0) && ((e <? 0) && (idx + e * 2 ^ (L - lev L (pos idx)) >=? 0) &&
         (idx + e * 2 ^ (L - lev L (pos idx)) <? firstIdx dec1 c) || (e >? 0) &&
         (idx + e * 2 ^ (L - lev L (pos idx)) >? lastIdx dec1 n c) && (idx + e * 2 ^ (L - lev L (pos idx)) <? n)))%bool
        eqn:C; [|destruct H].
      apply addFor_In in H. destruct H as (-> & Hs & Os).
      exists (idx + e * 2 ^ (L - lev L (pos idx))). split; [left; auto|]. split.
      * apply (dir_pred L lmin HL). split; auto. exists e. split; auto. apply pos_add.
      * left. split; auto. split; [|auto].
        rewrite andb_true_iff, orb_true_iff, !andb_true_iff, Z.geb_leb, !Z.gtb_ltb, !Z.ltb_lt, Z.leb_le in C. lia.
    + destruct ((b =? 1) && (e >? 0) && (idx + e * 2 ^ (L - lev L (pos idx)) =? n))%bool eqn:C; [|destruct H].
      rewrite !andb_true_iff, Z.gtb_ltb, Z.ltb_lt, !Z.eqb_eq in C. destruct C as ((B & _) & En).
      destruct ((owner 0 >=? 0) && negb (owner 0 =? c))%bool eqn:C2; [|destruct H].
      destruct H as [H | []]. inv H. rewrite andb_true_iff, negb_true_iff, Z.eqb_neq in C2.
      exists (idx + e * 2 ^ (L - lev L (pos idx))). split; [right; auto|]. split.
      * apply (dir_pred L lmin HL). split; auto. exists e. split; auto. apply pos_add.
      * right. split; auto. split; auto. split; [|auto].
        destruct (Z.eq_dec (firstIdx dec1 c) 0) as [Z0|]; [|lia]. apply O0 in Z0. tauto.
  - intros (r & Er & D & HR). pose proof (proj1 (dir_pred L lmin HL _ _) D) as [_ (e & He & E)].
    exists e. split; auto. pose proof (pos_diff r idx) as PD.
    assert (Es : idx + e * 2 ^ (L - lev L (pos idx)) = r) by lia. rewrite Es. apply in_app_iff.
    destruct HR as [(Hr & Nr & -> & Or) | (B & -> & F & -> & Or)].
    + left. assert (((lev L (pos idx) >? 0) && ((e <? 0) && (r >=? 0) && (r <? firstIdx dec1 c) || (e >? 0) &&
         (r >? lastIdx dec1 n c) && (r <? n)))%bool = true) as ->.
      { rewrite andb_true_iff, orb_true_iff, !andb_true_iff, Z.geb_leb, !Z.gtb_ltb, !Z.ltb_lt, Z.leb_le.
        set (w := 2 ^ (L - lev L (pos idx))) in *. clearbody w. destruct He as [-> | ->]; lia. }
      apply addFor_In. auto.
    + right. assert (e = 1) as -> by (set (w := 2 ^ (L - lev L (pos idx))) in *; clearbody w; destruct He as [-> | ->]; lia).
      rewrite (proj2 (Z.eqb_eq b 1) B), !Z.eqb_refl. cbn [andb].
      assert (owner 0 <> c) by (rewrite O0; lia).
      destruct (Z.eqb_spec (owner 0) c); [lia|]. rewrite Z.geb_leb. destruct (Z.leb_spec 0 (owner 0)); [|lia].
      simpl. left. congruence.
Qed.

Lemma hierVisited_cover : forall c, isPart c -> let vs := hierVisited b L dec1 n c in
  (forall x, In x vs -> firstIdx dec1 c <= x <= lastIdx dec1 n c) /\
  (forall x, firstIdx dec1 c <= x <= lastIdx dec1 n c -> In x vs \/
     exists v, In v vs /\ In (rightPred v) vs /\ v < x < rightPred v /\ rightPred v <= lastIdx dec1 n c).
Proof.
  intros c Hc vs. pose proof (part_range c Hc) as P.
  destruct (loop_cover (hierNext b L (lastIdx dec1 n c)) c Hc) as (R & C & _).
  { intros i Hi. apply hierNext_spec. lia. }
  split; [exact R|exact C].
Qed.

(** An index that is not visited has no needed or needing points outside. *)
Lemma skip_succ : forall c v i x, isPart c -> firstIdx dec1 c <= v -> v < i < rightPred v -> rightPred v <= lastIdx dec1 n c ->
  0 <= x < n -> Anc L lmin (pos x) (pos i) -> firstIdx dec1 c <= x <= lastIdx dec1 n c.
Proof.
  intros c v i x Hc Hv Hi Hl Hx A. pose proof (part_range c Hc) as P. unfold rightPred in *.
  pose proof (between_succ L lmin HL (pos v) (pos i) (pos x) (pos_range v ltac:(lia)) (pos_range i ltac:(lia))) as B.
  pose proof (pos_diff i v). pose proof (pos_diff x v). specialize (B ltac:(lia) A). lia.
Qed.

Lemma hier_send_spec : forall c q i, isPart c ->
  (In (q, i) (hierSendMap b L lmin dec1 n c) <-> sendSpec (Dir L lmin) c q i).
Proof.
  intros c q i Hc. destruct (hierVisited_cover c Hc) as [R C]. pose proof (part_range c Hc) as P.
  unfold hierSendMap. rewrite in_flat_map. split.
  - intros (v & Hv & H). pose proof (R v Hv) as Rv. apply hierSends_In in H; auto. destruct H as [-> H]. split; auto.
  - intros [Hi (x & Hx & Ox & Nx & HR)]. exists i. split; [|apply hierSends_In; auto; split; auto; exists x; auto].
    destruct (C i Hi) as [|(v & Hv & _ & Hb' & Hl)]; auto. exfalso. apply Nx. pose proof (R v Hv).
    destruct HR as [D | (B & -> & D)]; [|lia].
    apply (skip_succ c v i x); auto; try lia. apply (dir_anc L lmin HL); auto; apply pos_range; lia.
Qed.

Lemma hier_recv_spec : forall c o i, isPart c ->
  (In (o, i) (hierRecvMap b L lmin dec1 n c) <-> recvSpec (Dir L lmin) c o i).
Proof.
  intros c o i Hc. destruct (hierVisited_cover c Hc) as [R C]. pose proof (part_range c Hc) as P.
  unfold hierRecvMap. rewrite in_flat_map. split.
  - intros (v & Hv & H). pose proof (R v Hv) as Rv. apply hierRecvs_In in H; auto. destruct H as (r & Er & D & HR).
    exists v, r. auto.
  - intros (x & r & Lx & Er & D & HR). exists x. split; [|apply hierRecvs_In; auto; exists r; auto].
    destruct (C x Lx) as [|(v & Hv & _ & Hb' & Hl)]; auto. exfalso. pose proof (R v Hv).
    pose proof (between_pred L lmin HL (pos v) (pos x) (pos r) (pos_range v ltac:(lia)) (pos_range x ltac:(lia))) as B.
    unfold rightPred in *. pose proof (pos_diff x v). pose proof (pos_diff r v). specialize (B ltac:(lia) D).
    destruct HR as [(Hr & Nr & _) | (B1 & -> & _)]; lia.
Qed.

Theorem hier_exchange_matches : forall c q, isPart c -> isPart q ->
  entryOf (hierSendMap b L lmin dec1 n c) q = entryOf (hierRecvMap b L lmin dec1 n q) c.
Proof.
  intros c q Hc Hq. apply entry_eq. intros i. rewrite hier_send_spec, hier_recv_spec by auto. now apply specs_match.
Qed.

(** ** exchangeData1dDehierarchization *)

Lemma leftPred_eq : forall i, 0 <= i < n -> lmin < lev L (pos i) ->
  getLeftPredecessor b L i = i - 2 ^ (L - lev L (pos i)).
Proof.
  intros i Hi Hm. unfold getLeftPredecessor. rewrite getLevel_lev. destruct (Z.eqb_spec (lev L (pos i)) 0); [lia|auto].
Qed.

Lemma rightPred_eq : forall i, 0 <= i < n -> lmin < lev L (pos i) ->
  (getRightPredecessor b L n i = rightPred i /\ ext (rightPred i)) \/
  (getRightPredecessor b L n i = -1 /\ n <= rightPred i /\ ~ ext (rightPred i)).
Proof.
  intros i Hi Hm. unfold getRightPredecessor, ext. rewrite getLevel_lev. fold (rightPred i).
  pose proof (rightPred_gt i Hi).
  destruct (Z.eqb_spec (lev L (pos i)) 0); [lia|].
  destruct (Z.eqb_spec b 1); destruct (Z.eqb_spec (rightPred i) n); simpl; try (left; split; [auto|lia]).
  all: rewrite Z.gtb_ltb; destruct (Z.ltb_spec (n - 1) (rightPred i)); try (left; split; [auto|lia]).
  all: right; split; [auto|lia].
Qed.

Lemma dir_rightPred : forall i, 0 <= i < n -> lmin < lev L (pos i) -> Dir L lmin (pos i) (pos (rightPred i)).
Proof.
  intros i Hi Hm. apply (dir_pred L lmin HL). split; auto. exists 1. split; auto. unfold rightPred. rewrite pos_add. ring.
Qed.

Lemma dir_leftPred : forall i, 0 <= i < n -> lmin < lev L (pos i) ->
  Dir L lmin (pos i) (pos (i - 2 ^ (L - lev L (pos i)))).
Proof.
  intros i Hi Hm. apply (dir_pred L lmin HL). split; auto. exists (-1). split; auto.
  replace (i - 2 ^ (L - lev L (pos i))) with (i + -1 * 2 ^ (L - lev L (pos i))) by ring. now rewrite pos_add.
Qed.

Notation cp fuel c idx := (checkPredecessors fuel b L lmin dec1 n (firstIdx dec1 c) (lastIdx dec1 n c) c idx).

Lemma cp_next : forall fuel c i, isPart c -> firstIdx dec1 c <= i <= lastIdx dec1 n c ->
  (fst (cp (S fuel) c i) = i + 1 \/ (fst (cp (S fuel) c i) = rightPred i /\ rightPred i <= lastIdx dec1 n c)) /\
  (lmin < lev L (pos i) -> rightPred i <= lastIdx dec1 n c -> fst (cp (S fuel) c i) = rightPred i).
Proof.
  intros fuel c i Hc Hi. pose proof (part_range c Hc) as P. assert (Hi0 : 0 <= i < n) by lia.
  pose proof (lev_idx i Hi0) as Lr. pose proof (rightPred_gt i Hi0). cbn [checkPredecessors].
  rewrite getLevel_lev. destruct (Z.leb_spec (lev L (pos i)) lmin) as [Hm|Hm]; cbn [orb].
  - cbn [fst]. rewrite nextIndex_spec by lia. split; [auto|lia].
  - destruct (Z.ltb_spec i 0); [lia|]. cbv zeta.
    destruct (rightPred_eq i Hi0 Hm) as [[-> X] | (-> & G & X)].
    + destruct (Z.ltb_spec (rightPred i) 0); [lia|]. rewrite Z.gtb_ltb.
      destruct (Z.ltb_spec (lastIdx dec1 n c) (rightPred i)) as [Hg|Hg]; cbn [fst]; [|auto].
      assert (nextIndex1d b L (lastIdx dec1 n c) i = i + 1) as ->.
      { apply nextIndex_spec; auto. destruct (Z.eq_dec (lev L (pos i)) L) as [E|]; [|lia].
        rewrite (rightPred_finest i E) in *. lia. }
      split; [auto|lia].
    + cbn [Z.ltb Z.compare fst].
      assert (nextIndex1d b L (lastIdx dec1 n c) i = i + 1) as ->.
      { apply nextIndex_spec; auto. destruct (Z.eq_dec (lev L (pos i)) L) as [E|]; [|lia].
        rewrite (rightPred_finest i E) in *. lia. }
      split; [auto|lia].
Qed.

(** The values requested for [i] are exactly ancestors of [i] outside of the own partition. *)
Lemma cp_sound : forall fuel c i o j, isPart c -> 0 <= i < n -> In (o, j) (snd (cp fuel c i)) ->
  exists r, ext r /\ Anc L lmin (pos i) (pos r) /\ recvOk c o j r.
Proof.
  induction fuel as [|fuel IH]; intros c i o j Hc Hi H; [destruct H|].
  pose proof (part_range c Hc) as P. pose proof n_pos as Np.
  assert (O0 : owner 0 = c <-> firstIdx dec1 c = 0). { rewrite (owner_local c 0 Hc) by lia. lia. }
  cbn [checkPredecessors] in H. rewrite getLevel_lev in H.
  destruct (Z.leb_spec (lev L (pos i)) lmin) as [Hm|Hm]; cbn [orb] in H; [destruct H|].
  destruct (Z.ltb_spec i 0); [lia|]. cbv zeta in H. pose proof (rightPred_gt i Hi) as RG.
  set (lp := getLeftPredecessor b L i) in *.
  assert (LP : lp = i - 2 ^ (L - lev L (pos i))) by (apply leftPred_eq; auto).
  pose proof (lev_idx i Hi) as Lr. pose proof (pow2_pos (L - lev L (pos i)) ltac:(lia)) as Pl.
  assert (SL : forall A B, In (o, j) ((if (lp >=? 0) && (lp <? firstIdx dec1 c) then [(owner lp, lp)] else []) ++
            (if (lp >=? 0) && A then B else [])) -> (In (o, j) B -> In (o, j) (snd (cp fuel c lp))) ->
            exists r, ext r /\ Anc L lmin (pos i) (pos r) /\ recvOk c o j r).
  { intros A B HAB HB. apply in_app_iff in HAB. rewrite Z.geb_leb in HAB. destruct (Z.leb_spec 0 lp); cbn [andb] in HAB;
      [|destruct HAB as [[]|[]]].
    assert (D2 : Dir L lmin (pos i) (pos lp)) by (rewrite LP; apply dir_leftPred; auto).
    assert (D : Anc L lmin (pos i) (pos lp)).
    { apply (dir_anc L lmin HL); [apply pos_range; auto|apply pos_range; lia|auto]. }
    destruct HAB as [HAB | HAB].
    - destruct (Z.ltb_spec lp (firstIdx dec1 c)); [|destruct HAB]. destruct HAB as [HAB | []]. inv HAB.
      exists lp. split; [left; lia|]. split; auto. left. repeat split; auto; lia.
    - destruct A; [|destruct HAB]. apply HB in HAB. apply IH in HAB; [|auto|lia].
      destruct HAB as (r & Er & Ar & Or). exists r. split; auto. split; auto.
      apply (anc_trans_pred L lmin HL (pos i) (pos lp) (pos r)); auto;
        [apply pos_range; auto|apply pos_range; lia|apply ext_range; auto]. }
  destruct (rightPred_eq i Hi Hm) as [[ER X] | (ER & G & X)]; rewrite ER in H.
  2: { cbn [Z.ltb Z.compare snd] in H. eapply SL; [exact H|auto]. }
  destruct (Z.ltb_spec (rightPred i) 0); [lia|]. rewrite Z.gtb_ltb in H.
  destruct (Z.ltb_spec (lastIdx dec1 n c) (rightPred i)) as [Hg|Hg]; cbn [snd] in H.
  2: { eapply SL; [exact H|auto]. }
  apply in_app_iff in H. destruct H as [H | H]; [eapply SL; [exact H|auto]|].
  assert (D : Anc L lmin (pos i) (pos (rightPred i))).
  { apply (dir_anc L lmin HL); [apply pos_range; auto|apply ext_range; auto|]. apply dir_rightPred; auto. }
  destruct ((b =? 1) && (rightPred i =? n))%bool eqn:C.
  - rewrite andb_true_iff, !Z.eqb_eq in C. destruct C as [B En].
    rewrite Z.gtb_ltb in H. destruct (Z.ltb_spec 0 (firstIdx dec1 c)) as [F|]; [|destruct H].
    destruct (negb (owner 0 =? c)); [|destruct H]. destruct H as [H | []]. inv H.
    exists (rightPred i). split; auto. split; auto. right. repeat split; auto.
  - assert (Hr : 0 <= rightPred i < n).
    { destruct X as [|[B En]]; auto. rewrite B, En, !Z.eqb_refl in C. discriminate C. }
    destruct H as [H | H].
    + inv H. exists (rightPred i). split; auto. split; auto. left. repeat split; auto; lia.
    + destruct (getLevel b L (rightPred i) >=? lmin); [|destruct H]. apply IH in H; auto.
      destruct H as (r & Er & Ar & Or). exists r. split; auto. split; auto.
      apply (anc_trans_pred L lmin HL (pos i) (pos (rightPred i)) (pos r)); auto;
        [apply pos_range; auto|apply pos_range; lia|apply ext_range; auto|apply dir_rightPred; auto].
Qed.

Lemma anc_lmin : forall i r, 0 <= i < n -> ext r -> Anc L lmin (pos i) (pos r) -> lmin < lev L (pos i).
Proof.
  intros i r Hi Hr A. pose proof (anc_lev L lmin HL (pos i) (pos r) (pos_range i Hi) (ext_range r Hr) A). lia.
Qed.

Lemma cp_left : forall fuel c i r, isPart c -> 0 <= r < i -> i < n -> r < firstIdx dec1 c ->
  Anc L lmin (pos i) (pos r) -> lev L (pos i) < Z.of_nat fuel -> In (owner r, r) (snd (cp fuel c i)).
Proof.
  induction fuel as [|fuel IH]; intros c i r Hc Hr Hi Hf A Hfuel.
  { pose proof (lev_idx i ltac:(lia)). lia. }
  assert (Hi0 : 0 <= i < n) by lia. pose proof (anc_lmin i r Hi0 ltac:(left; lia) A) as Hm.
  pose proof (lev_idx i Hi0) as Lr. pose proof (pow2_pos (L - lev L (pos i)) ltac:(lia)) as Pl.
  cbn [checkPredecessors]. rewrite getLevel_lev. destruct (Z.leb_spec (lev L (pos i)) lmin); [lia|]. cbn [orb].
  destruct (Z.ltb_spec i 0); [lia|]. cbv zeta.
  rewrite (leftPred_eq i Hi0 Hm). set (lp := i - 2 ^ (L - lev L (pos i))) in *.
  assert (PL : pos lp = pos i - 2 ^ (L - lev L (pos i))).
  { unfold lp. replace (i - 2 ^ (L - lev L (pos i))) with (i + - 2 ^ (L - lev L (pos i))) by ring.
    rewrite pos_add. ring. }
  assert (SL : forall B C, In (owner r, r) (((if (lp >=? 0) && (lp <? firstIdx dec1 c) then [(owner lp, lp)] else []) ++
            (if (lp >=? 0) && (getLevel b L lp >=? lmin) then snd (cp fuel c lp) else [])) ++ C) /\
            (B = (if (lp >=? 0) && (lp <? firstIdx dec1 c) then [(owner lp, lp)] else []) ++
            (if (lp >=? 0) && (getLevel b L lp >=? lmin) then snd (cp fuel c lp) else []) -> In (owner r, r) B)).
  { assert (S0 : In (owner r, r) ((if (lp >=? 0) && (lp <? firstIdx dec1 c) then [(owner lp, lp)] else []) ++
            (if (lp >=? 0) && (getLevel b L lp >=? lmin) then snd (cp fuel c lp) else []))).
    { pose proof (pos_diff i r) as PD.
      pose proof (anc_left L lmin HL (pos i) (pos r) (pos_range i Hi0) (pos_range r ltac:(lia)) A ltac:(lia)) as AL.
      cbv zeta in AL. rewrite <- PL in AL. pose proof (pos_diff r lp) as PD2.
      apply in_app_iff. rewrite Z.geb_leb. destruct AL as [E | [Hlt A2]].
      - left. assert (r = lp) by lia. destruct (Z.leb_spec 0 lp); [|lia]. destruct (Z.ltb_spec lp (firstIdx dec1 c)); [|lia].
        simpl. left. congruence.
      - right. destruct (Z.leb_spec 0 lp); [|lia]. cbn [andb]. rewrite Z.geb_leb, getLevel_lev.
        assert (0 <= lp < n) by lia.
        pose proof (anc_lmin lp r ltac:(lia) ltac:(left; lia) A2).
        destruct (Z.leb_spec lmin (lev L (pos lp))); [|lia]. apply IH; auto; try lia.
        pose proof (pred_lev L lmin HL (pos i) (-1) (pos_range i Hi0) ltac:(lia) ltac:(auto)) as PV. cbv zeta in PV.
        replace (pos i + -1 * 2 ^ (L - lev L (pos i))) with (pos lp) in PV by lia.
        specialize (PV (pos_range lp ltac:(lia))). lia. }
    intros B C. split; [apply in_app_iff; auto|intros ->; auto]. }
  destruct (rightPred_eq i Hi0 Hm) as [[-> X] | (-> & G & X)].
  - pose proof (rightPred_gt i Hi0). destruct (Z.ltb_spec (rightPred i) 0); [lia|].
    destruct (rightPred i >? lastIdx dec1 n c); cbn [snd].
    + apply (proj1 (SL [] _)).
    + eapply (proj2 (SL _ [])). reflexivity.
  - cbn [Z.ltb Z.compare snd]. eapply (proj2 (SL _ [])). reflexivity.
Qed.

Lemma cp_right : forall fuel c i r o j, isPart c -> 0 <= i < r -> i < n -> ext r -> recvOk c o j r ->
  lastIdx dec1 n c < rightPred i -> Anc L lmin (pos i) (pos r) -> lev L (pos i) < Z.of_nat fuel ->
  lastIdx dec1 n c < r -> In (o, j) (snd (cp fuel c i)).
Proof.
  induction fuel as [|fuel IH]; intros c i r o j Hc Hr Hi Er HR Hg A Hfuel Hlr.
  { pose proof (lev_idx i ltac:(lia)). lia. }
  assert (Hi0 : 0 <= i < n) by lia. pose proof (anc_lmin i r Hi0 Er A) as Hm. pose proof n_pos as Np.
  pose proof (lev_idx i Hi0) as Lr. pose proof (pow2_pos (L - lev L (pos i)) ltac:(lia)) as Pl.
  pose proof (part_range c Hc) as P.
  assert (O0 : owner 0 = c <-> firstIdx dec1 c = 0). { rewrite (owner_local c 0 Hc) by lia. lia. }
  cbn [checkPredecessors]. rewrite getLevel_lev. destruct (Z.leb_spec (lev L (pos i)) lmin); [lia|]. cbn [orb].
  destruct (Z.ltb_spec i 0); [lia|]. cbv zeta. pose proof (rightPred_gt i Hi0) as RG.
  pose proof (pos_diff i r) as PD.
  pose proof (anc_right L lmin HL (pos i) (pos r) (pos_range i Hi0) (ext_range r Er) A ltac:(lia)) as AR.
  cbv zeta in AR. rewrite <- pos_add in AR. fold (rightPred i) in AR. pose proof (pos_diff r (rightPred i)) as PD2.
  assert (X : ext (rightPred i)). { destruct AR as [E | [Hlt _]]; [assert (r = rightPred i) as <- by lia; auto|].
    left. destruct Er as [|[_ ->]]; lia. }
  destruct (rightPred_eq i Hi0 Hm) as [[-> _] | (_ & _ & NX)]; [|tauto].
  destruct (Z.ltb_spec (rightPred i) 0); [lia|]. rewrite Z.gtb_ltb.
  destruct (Z.ltb_spec (lastIdx dec1 n c) (rightPred i)); [|lia]. cbn [snd]. apply in_app_iff. right.
  destruct AR as [E | [Hlt A2]].
  - assert (r = rightPred i) as <- by lia.
    destruct HR as [(Hr2 & Nr & -> & ->) | (B & -> & F & -> & ->)].
    + destruct ((b =? 1) && (r =? n))%bool eqn:C; [|simpl; auto].
      rewrite andb_true_iff, !Z.eqb_eq in C. lia.
    + rewrite (proj2 (Z.eqb_eq b 1) B), Z.eqb_refl. cbn [andb]. rewrite Z.gtb_ltb.
      destruct (Z.ltb_spec 0 (firstIdx dec1 c)); [|lia]. destruct (Z.eqb_spec (owner 0) c) as [E0|]; [|simpl; auto].
      apply O0 in E0. lia.
  - assert (Hri : 0 <= rightPred i < n) by (destruct Er as [|[_ ->]]; lia).
    destruct ((b =? 1) && (rightPred i =? n))%bool eqn:C.
    { rewrite andb_true_iff, !Z.eqb_eq in C. lia. }
    simpl. right. rewrite getLevel_lev, Z.geb_leb. pose proof (anc_lmin _ r Hri Er A2).
    destruct (Z.leb_spec lmin (lev L (pos (rightPred i)))); [|lia].
    apply (IH c (rightPred i) r); auto; try lia.
    + pose proof (rightPred_gt _ Hri). lia.
    + pose proof (pred_lev L lmin HL (pos i) 1 (pos_range i Hi0) ltac:(lia) ltac:(auto)) as PV. cbv zeta in PV.
      assert (PR : pos (rightPred i) = pos i + 1 * 2 ^ (L - lev L (pos i))).
      { unfold rightPred. rewrite pos_add. ring. }
      rewrite <- PR in PV. specialize (PV (pos_range _ Hri)). lia.
Qed.

Lemma dehierVisited_cover : forall c, isPart c -> let vs := dehierVisited b L lmin dec1 n c in
  (forall x, In x vs -> firstIdx dec1 c <= x <= lastIdx dec1 n c) /\
  (forall x, firstIdx dec1 c <= x <= lastIdx dec1 n c -> In x vs \/
     exists v, In v vs /\ In (rightPred v) vs /\ v < x < rightPred v /\ rightPred v <= lastIdx dec1 n c) /\
  (forall v, In v vs -> lmin < lev L (pos v) -> rightPred v <= lastIdx dec1 n c -> In (rightPred v) vs).
Proof.
  intros c Hc vs. pose proof (part_range c Hc) as P.
  assert (EF : Z.to_nat (L + 1) = S (Z.to_nat L)) by lia.
  destruct (loop_cover (fun i => fst (predecessorsOf b L lmin dec1 n c i)) c Hc) as (R & C & S).
  { intros i Hi. unfold predecessorsOf. rewrite EF. apply cp_next; auto. }
  split; [exact R|]. split; [exact C|]. intros v Hv Hm Hl. apply S; auto.
  unfold predecessorsOf. rewrite EF. apply cp_next; auto.
Qed.

Lemma dehier_recv_spec : forall c o i, isPart c ->
  (In (o, i) (dehierRecvMap b L lmin dec1 n c) <-> recvSpec (Anc L lmin) c o i).
Proof.
  intros c o i Hc. destruct (dehierVisited_cover c Hc) as (R & C & S). pose proof (part_range c Hc) as P.
  unfold dehierRecvMap. rewrite in_flat_map. split.
  - intros (v & Hv & H). pose proof (R v Hv) as Rv. apply cp_sound in H; auto; [|lia]. destruct H as (r & Er & A & HR).
    exists v, r. auto.
  - intros (x & r & Lx & Er & A & HR).
    assert (Hr : r < firstIdx dec1 c \/ lastIdx dec1 n c < r) by (destruct HR as [(Hr & Nr & _) | (_ & -> & _)]; lia).
    destruct Hr as [Hr | Hr].
    + (* left ancestors: found from the visited point at or below x *)
      destruct HR as [(Hr0 & _ & -> & ->) | (_ & -> & _)]; [|lia].
      assert (exists v, In v (dehierVisited b L lmin dec1 n c) /\ v <= x) as (v & Hv & Hvx).
      { destruct (C x Lx) as [|(v & Hv & _ & Hb' & _)]; [exists x; split; auto; lia|exists v; split; auto; lia]. }
      pose proof (R v Hv). exists v. split; auto. unfold predecessorsOf.
      assert (A2 : Anc L lmin (pos v) (pos r)).
      { destruct A as [_ A]. pose proof (pos_diff x r). pose proof (pos_diff v r). split; lia. }
      apply cp_left; auto; try lia. pose proof (lev_idx v ltac:(lia)). lia.
    + (* right ancestors: follow the right predecessors inside *)
      assert (exists v, In v (dehierVisited b L lmin dec1 n c) /\ x <= v) as (v & Hv & Hvx).
      { destruct (C x Lx) as [|(v & _ & Hv & Hb' & _)]; [exists x; split; auto; lia|exists (rightPred v); split; auto; lia]. }
      assert (A2 : Anc L lmin (pos v) (pos r)).
      { pose proof (R v Hv). destruct A as [_ A]. pose proof (pos_diff x r). pose proof (pos_diff v r). split; lia. }
      assert (G : forall k v, (Z.to_nat (lastIdx dec1 n c - v) <= k)%nat -> In v (dehierVisited b L lmin dec1 n c) ->
        Anc L lmin (pos v) (pos r) -> exists u, In u (dehierVisited b L lmin dec1 n c) /\
          Anc L lmin (pos u) (pos r) /\ lastIdx dec1 n c < rightPred u).
      { clear - HL R S P Hr Er Hb HL28 Hn HV. induction k as [|k IH]; intros v Hk Hv A; pose proof (R v Hv) as Rv.
        - exists v. pose proof (rightPred_gt v ltac:(lia)). repeat split; auto; try lia; apply A.
        - destruct (Z_lt_le_dec (lastIdx dec1 n c) (rightPred v)) as [G|G].
          + exists v. split; auto.
          + pose proof (rightPred_gt v ltac:(lia)). pose proof (anc_lmin v r ltac:(lia) Er A) as Hm.
            apply (IH (rightPred v)); [lia| |].
            * apply S; auto.
            * pose proof (pos_diff v r) as PD.
              pose proof (anc_right L lmin HL (pos v) (pos r) (pos_range v ltac:(lia)) (ext_range r Er) A ltac:(lia)) as AR.
              cbv zeta in AR. rewrite <- pos_add in AR. fold (rightPred v) in AR. pose proof (pos_diff r (rightPred v)) as PD2.
              destruct AR as [E | [_ A2]]; [lia|auto]. }
      destruct (G _ v (le_n _) Hv A2) as (u & Hu & Au & Gu). pose proof (R u Hu). exists u. split; auto.
      unfold predecessorsOf. apply (cp_right _ c u r); auto; try lia. pose proof (lev_idx u ltac:(lia)). lia.
Qed.

(** The points reached by the successor recursions. *)
Lemma left_sound : forall fuel c check root q i, isPart c -> 0 <= check <= root -> root < n ->
  (check = root \/ lmin < lev L (pos check)) ->
  pos root - W L lmin (pos root) <= pos check - W L lmin (pos check) ->
  In (q, i) (leftSuccs fuel b L lmin dec1 n (firstIdx dec1 c) check root) ->
  i = root /\ exists s, 0 <= s < firstIdx dec1 c /\ s < n /\ owner s = q /\ Anc L lmin (pos s) (pos root).
Proof.
  induction fuel as [|fuel IH]; intros c check root q i Hc Hk Hroot Hcase HW H; [destruct H|].
  assert (Hk0 : 0 <= check < n) by lia. pose proof (lev_idx check Hk0) as Lc.
  cbn [leftSuccs] in H. apply in_flat_map in H. destruct H as (l & Hl & H).
  rewrite getLevel_lev in Hl. apply zrange_In in Hl. cbv zeta in H. rewrite pow_table in H by lia.
  replace (check - 2 ^ (L - l)) with (check + -1 * 2 ^ (L - l)) in H by ring.
  set (s := check + -1 * 2 ^ (L - l)) in *. pose proof (pow2_pos (L - l) ltac:(lia)) as Pl.
  assert (Es : lev L (pos s) = l). { unfold s. rewrite pos_add. apply (succ_lev L lmin HL); auto; [apply pos_range; auto|lia]. }
  rewrite !getLevel_lev, Es in H.
  destruct ((check =? root) && (l <=? lmin))%bool eqn:C; [destruct H|].
  assert (Hm : Z.max lmin (lev L (pos check)) < l).
  { rewrite andb_false_iff, Z.eqb_neq, Z.leb_gt in C. destruct C; lia. }
  destruct (W_succ L lmin HL (pos check) (pos s) l (pos_range check Hk0) ltac:(lia) Es) as [W1 W2].
  rewrite Z.geb_leb in H. apply in_app_iff in H.
  destruct (Z.leb_spec 0 s) as [Hs|]; cbn [andb] in H; [|destruct H as [[]|[]]].
  assert (PS : pos s = pos check - 2 ^ (L - l)) by (unfold s; rewrite pos_add; ring).
  pose proof (pos_diff s check) as PD1. pose proof (pos_diff check root) as PD2.
  destruct H as [H | H].
  - destruct (Z.ltb_spec s (firstIdx dec1 c)); [|destruct H]. rewrite Z.gtb_ltb in H.
    destruct (Z.ltb_spec lmin l); [|destruct H]. apply addFor_In in H. destruct H as (-> & Hr & Or).
    split; auto. exists s. split; [lia|]. split; [lia|]. split; auto. split; lia.
  - apply (IH c s root q i) in H; auto; lia.
Qed.

Lemma left_complete : forall fuel c check root x, isPart c -> 0 <= x < check -> check <= root -> root < n ->
  x < firstIdx dec1 c -> (check = root \/ lmin < lev L (pos check)) ->
  Anc L lmin (pos x) (pos check) -> L - lev L (pos check) < Z.of_nat fuel ->
  In (owner x, root) (leftSuccs fuel b L lmin dec1 n (firstIdx dec1 c) check root).
Proof.
  induction fuel as [|fuel IH]; intros c check root x Hc Hx Hk Hroot Hf Hcase A Hfuel.
  { pose proof (lev_idx check ltac:(lia)). lia. }
  assert (Hk0 : 0 <= check < n) by lia. pose proof (lev_idx check Hk0) as Lc. pose proof (pos_diff x check) as PD.
  destruct (first_succ L lmin HL (pos check) (pos x) (pos_range check Hk0) A) as (l & Hl & Hd).
  cbn [leftSuccs]. apply in_flat_map. exists l. split; [rewrite getLevel_lev; apply zrange_In; lia|].
  cbv zeta. rewrite pow_table by lia.
  replace (check - 2 ^ (L - l)) with (check + -1 * 2 ^ (L - l)) by ring.
  set (s := check + -1 * 2 ^ (L - l)) in *. pose proof (pow2_pos (L - l) ltac:(lia)) as Pl.
  assert (Es : lev L (pos s) = l). { unfold s. rewrite pos_add. apply (succ_lev L lmin HL); auto; [apply pos_range; auto|lia]. }
  rewrite !getLevel_lev, Es.
  destruct ((check =? root) && (l <=? lmin))%bool eqn:C.
  { rewrite andb_true_iff, Z.leb_le in C. lia. }
  destruct (W_succ L lmin HL (pos check) (pos s) l (pos_range check Hk0) ltac:(lia) Es) as [W1 W2].
  pose proof (pos_diff s check) as PD1. pose proof (pos_diff x s) as PD2.
  assert (x <= s) by lia. rewrite Z.geb_leb. destruct (Z.leb_spec 0 s); [|lia]. cbn [andb]. apply in_app_iff.
  destruct (Z.eq_dec x s) as [E|].
  - left. destruct (Z.ltb_spec s (firstIdx dec1 c)); [|lia]. rewrite Z.gtb_ltb.
    destruct (Z.ltb_spec lmin l); [|lia]. apply addFor_In. split; auto. split; [lia|congruence].
  - right. apply IH; auto; try lia. split; lia.
Qed.

Definition mirrored (root : Z) : bool := (root =? 0) && (b =? 1).

Lemma right_sound : forall fuel c check root q i, isPart c -> 0 <= root <= check -> check < n ->
  (check = root \/ lmin < lev L (pos check)) ->
  pos check + W L lmin (pos check) <= pos root + W L lmin (pos root) ->
  In (q, i) (rightSuccs fuel b L lmin dec1 n (lastIdx dec1 n c) check root) ->
  i = root /\ exists s, Anc L lmin (pos s) (pos root) /\ root < s /\
    ((lastIdx dec1 n c < s < n /\ owner s = q) \/
     (mirrored root = true /\ lastIdx dec1 n c < n - s /\ 0 <= n - s /\ owner (n - s) = q)).
Proof.
  induction fuel as [|fuel IH]; intros c check root q i Hc Hk Hroot Hcase HW H; [destruct H|].
  assert (Hk0 : 0 <= check < n) by lia. pose proof (lev_idx check Hk0) as Lc.
  cbn [rightSuccs] in H. apply in_flat_map in H. destruct H as (l & Hl & H).
  rewrite getLevel_lev in Hl. apply zrange_In in Hl. cbv zeta in H. rewrite pow_table in H by lia.
  replace (check + 2 ^ (L - l)) with (check + 1 * 2 ^ (L - l)) in H by ring.
  set (s := check + 1 * 2 ^ (L - l)) in *. pose proof (pow2_pos (L - l) ltac:(lia)) as Pl.
  assert (Es : lev L (pos s) = l). { unfold s. rewrite pos_add. apply (succ_lev L lmin HL); auto; [apply pos_range; auto|lia]. }
  rewrite !getLevel_lev, Es in H.
  destruct ((check =? root) && (l <=? lmin))%bool eqn:C; [destruct H|].
  assert (Hm : Z.max lmin (lev L (pos check)) < l).
  { rewrite andb_false_iff, Z.eqb_neq, Z.leb_gt in C. destruct C; lia. }
  destruct (W_succ L lmin HL (pos check) (pos s) l (pos_range check Hk0) ltac:(lia) Es) as [W1 W2].
  assert (PS : pos s = pos check + 2 ^ (L - l)) by (unfold s; rewrite pos_add; ring).
  pose proof (pos_diff s check) as PD1. pose proof (pos_diff check root) as PD2.
  rewrite (Z.gtb_ltb l lmin) in H. destruct (Z.ltb_spec lmin l); [|lia].
  apply in_app_iff in H. destruct H as [H | H]; [apply in_app_iff in H; destruct H as [H | H]|].
  - destruct (Z.ltb_spec s n); cbn [andb] in H; [|destruct H]. rewrite Z.gtb_ltb in H.
    destruct (Z.ltb_spec (lastIdx dec1 n c) s); [|destruct H]. apply addFor_In in H. destruct H as (-> & Hr & Or).
    split; auto. exists s. split; [split; lia|]. split; [lia|]. left. auto.
  - fold (mirrored root) in H. destruct (mirrored root) eqn:M; [|destruct H]. rewrite Z.gtb_ltb in H.
    destruct (Z.ltb_spec (lastIdx dec1 n c) (n - s)); [|destruct H]. apply addFor_In in H. destruct H as (-> & Hr & Or).
    split; auto. exists s. split; [split; lia|]. split; [lia|]. right. split; [reflexivity|]. split; [lia|]. split; [lia|auto].
  - destruct (Z.ltb_spec s n); [|destruct H]. apply (IH c s root q i) in H; auto; lia.
Qed.

Lemma right_complete : forall fuel c check root x, isPart c -> 0 <= root <= check -> check < x < n ->
  (check = root \/ lmin < lev L (pos check)) ->
  Anc L lmin (pos x) (pos check) -> L - lev L (pos check) < Z.of_nat fuel ->
  (lastIdx dec1 n c < x -> In (owner x, root) (rightSuccs fuel b L lmin dec1 n (lastIdx dec1 n c) check root)) /\
  (mirrored root = true -> lastIdx dec1 n c < n - x ->
     In (owner (n - x), root) (rightSuccs fuel b L lmin dec1 n (lastIdx dec1 n c) check root)).
Proof.
  induction fuel as [|fuel IH]; intros c check root x Hc Hk Hx Hcase A Hfuel.
  { pose proof (lev_idx check ltac:(lia)). lia. }
  assert (Hk0 : 0 <= check < n) by lia. pose proof (lev_idx check Hk0) as Lc. pose proof (pos_diff x check) as PD.
  destruct (first_succ L lmin HL (pos check) (pos x) (pos_range check Hk0) A) as (l & Hl & Hd).
  set (s := check + 1 * 2 ^ (L - l)) in *. pose proof (pow2_pos (L - l) ltac:(lia)) as Pl.
  assert (Es : lev L (pos s) = l). { unfold s. rewrite pos_add. apply (succ_lev L lmin HL); auto; [apply pos_range; auto|lia]. }
  destruct (W_succ L lmin HL (pos check) (pos s) l (pos_range check Hk0) ltac:(lia) Es) as [W1 W2].
  pose proof (pos_diff s check) as PD1. pose proof (pos_diff x s) as PD2. assert (s <= x) by lia.
  assert (GO : forall y, In y ((if (s <? n) && (s >? lastIdx dec1 n c) then addFor dec1 n s root else []) ++
               (if mirrored root then if n - s >? lastIdx dec1 n c then addFor dec1 n (n - s) root else [] else []) ++
               (if s <? n then rightSuccs fuel b L lmin dec1 n (lastIdx dec1 n c) s root else [])) ->
               In y (rightSuccs (S fuel) b L lmin dec1 n (lastIdx dec1 n c) check root)).
  { intros y Hy. cbn [rightSuccs]. apply in_flat_map. exists l. split; [rewrite getLevel_lev; apply zrange_In; lia|].
    cbv zeta. rewrite pow_table by lia. replace (check + 2 ^ (L - l)) with s by (unfold s; ring).
    rewrite !getLevel_lev, Es. destruct ((check =? root) && (l <=? lmin))%bool eqn:C.
    { rewrite andb_true_iff, Z.leb_le in C. lia. }
    rewrite (Z.gtb_ltb l lmin). destruct (Z.ltb_spec lmin l); [|lia]. fold (mirrored root).
    rewrite <- app_assoc. exact Hy. }
  destruct (Z.ltb_spec s n) as [Hsn|]; [|lia]. cbn [andb] in GO.
  destruct (Z.eq_dec x s) as [E|NE].
  - split.
    + intros Hl2. apply GO. apply in_app_iff. left. rewrite Z.gtb_ltb. destruct (Z.ltb_spec (lastIdx dec1 n c) s); [|lia].
      apply addFor_In. split; auto. split; [lia|congruence].
    + intros M Hl2. apply GO. apply in_app_iff. right. apply in_app_iff. left. rewrite M, Z.gtb_ltb.
      destruct (Z.ltb_spec (lastIdx dec1 n c) (n - s)); [|lia]. apply addFor_In. split; auto. split; [lia|congruence].
  - destruct (IH c s root x) as [I1 I2]; auto; try lia; [split; lia|].
    split.
    + intros Hl2. apply GO. rewrite !in_app_iff. auto.
    + intros M Hl2. apply GO. rewrite !in_app_iff. auto.
Qed.

Lemma dehier_send_spec : forall c q i, isPart c ->
  (In (q, i) (dehierSendMap b L lmin dec1 n c) <-> sendSpec (Anc L lmin) c q i).
Proof.
  intros c q i Hc. destruct (dehierVisited_cover c Hc) as (R & C & _). pose proof (part_range c Hc) as P. pose proof n_pos as Np.
  unfold dehierSendMap. rewrite in_flat_map. split.
  - intros (v & Hv & H). pose proof (R v Hv) as Rv. apply in_app_iff in H. destruct H as [H | H].
    + apply left_sound in H; auto; try lia. destruct H as (-> & s & Hs & Hsn & Os & A). split; auto.
      exists s. split; [lia|]. split; auto. split; [lia|auto].
    + apply right_sound in H; auto; try lia. destruct H as (-> & s & A & Hs & [[Hs2 Os] | (M & Hl & H0 & Os)]); split; auto.
      * exists s. split; [lia|]. split; auto. split; [lia|auto].
      * exists (n - s). split; [lia|]. split; auto. split; [lia|]. right.
        unfold mirrored in M. rewrite andb_true_iff, !Z.eqb_eq in M. destruct M as [-> B]. split; auto. split; auto.
        pose proof (pos_diff (n - s) n) as D1. pose proof (pos_diff s 0) as D2. destruct A as [A1 A2]. split; [lia|].
        assert (E : W L lmin (pos n) = W L lmin (pos 0)).
        { unfold W. rewrite (pos_n B). replace (lev L (2 ^ L)) with 0 by (symmetry; apply lev_zero; [lia| |auto]; lia).
          unfold gridPos. rewrite B. reflexivity. }
        rewrite E. lia.
  - intros [Hi (x & Hx & Ox & Nx & HR)]. exists i.
    assert (Vi : In i (dehierVisited b L lmin dec1 n c)).
    { destruct (C i Hi) as [|(v & Hv & _ & Hb' & Hl)]; auto. exfalso. pose proof (R v Hv).
      destruct HR as [A | (B & -> & A)]; [|lia]. apply Nx. apply (skip_succ c v i x); auto; lia. }
    split; auto. apply in_app_iff. pose proof (lev_idx i ltac:(lia)) as Li. subst q.
    destruct HR as [A | (B & -> & A)].
    + destruct (Z_lt_le_dec x i).
      * left. apply left_complete; auto; lia.
      * right. pose proof (pos_diff x i) as PD. destruct A as [A1 A2].
        apply right_complete; auto; try lia. split; auto.
    + right. pose proof (pos_diff x n) as D1. pose proof (pos_diff (n - x) 0) as D2. destruct A as [A1 A2].
      assert (E : W L lmin (pos n) = W L lmin (pos 0)).
      { unfold W. rewrite (pos_n B). replace (lev L (2 ^ L)) with 0 by (symmetry; apply lev_zero; [lia| |auto]; lia).
        unfold gridPos. rewrite B. reflexivity. }
      replace x with (n - (n - x)) at 1 by ring.
      apply right_complete; auto; try lia.
      * split; [lia|]. rewrite <- E. lia.
      * unfold mirrored. rewrite B. reflexivity.
Qed.

Theorem dehier_exchange_matches : forall c q, isPart c -> isPart q ->
  entryOf (dehierSendMap b L lmin dec1 n c) q = entryOf (dehierRecvMap b L lmin dec1 n q) c.
Proof.
  intros c q Hc Hq. apply entry_eq. intros i. rewrite dehier_send_spec, dehier_recv_spec by auto. now apply specs_match.
Qed.

(** ** exchangeAllData1d *)

Lemma poleNeighbors_In : forall c q, In q (poleNeighbors dec1 c) <-> isPart q /\ q <> c.
Proof. intros c q. unfold poleNeighbors. rewrite filter_In, zrange_In, negb_true_iff, Z.eqb_neq. lia. Qed.

Lemma all_send_In : forall c q i, In (q, i) (allSendMap dec1 n c) <->
  isPart q /\ q <> c /\ firstIdx dec1 c <= i <= lastIdx dec1 n c.
Proof.
  intros c q i. unfold allSendMap. rewrite in_flat_map. split.
  - intros (r & Hr & H). apply poleNeighbors_In in Hr. apply in_map_iff in H. destruct H as (j & E & Hj). inv E.
    apply zrange_In in Hj. lia.
  - intros (H1 & H2 & H3). exists q. split; [apply poleNeighbors_In; auto|]. apply in_map_iff. exists i. split; auto.
    apply zrange_In. lia.
Qed.

Lemma all_recv_In : forall c o i, isPart c -> (In (o, i) (allRecvMap dec1 n c) <->
  0 <= i < n /\ ~ (firstIdx dec1 c <= i <= lastIdx dec1 n c) /\ owner i = o).
Proof.
  intros c o i Hc. pose proof (part_range c Hc) as P. unfold allRecvMap. rewrite in_app_iff, !in_flat_map. split.
  - intros [(j & Hj & H) | (j & Hj & H)]; apply zrange_In in Hj; apply addFor_In in H; destruct H as (-> & H & Ho);
      (split; [lia|]; split; [lia|auto]).
  - intros (H1 & H2 & H3). destruct (Z_lt_le_dec i (firstIdx dec1 c)); [left|right];
      (exists i; split; [apply zrange_In; lia|apply addFor_In; auto]).
Qed.

Theorem all_exchange_matches : forall c q, isPart c -> isPart q ->
  entryOf (allSendMap dec1 n c) q = entryOf (allRecvMap dec1 n q) c.
Proof.
  intros c q Hc Hq. apply entry_eq. intros i. rewrite all_send_In, all_recv_In by auto.
  pose proof (part_range c Hc). pose proof (part_range q Hq). split.
  - intros (_ & Hne & Hi). assert (Hi0 : 0 <= i < n) by lia. split; auto.
    pose proof (proj2 (owner_local c i Hc Hi0) Hi) as O. split; auto.
    intros X. apply (owner_local q i Hq Hi0) in X. lia.
  - intros (Hi & Hl & O). split; auto. pose proof (proj1 (owner_local c i Hc Hi) O). split; auto. intros ->. tauto.
Qed.
End Exchange.
