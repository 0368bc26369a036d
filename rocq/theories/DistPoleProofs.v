(** Proofs about DistHierModel.v: the received values suffice, distributed poles give the same values as whole poles. *)
From Verif Require Import Base TensorModel PartitionModel PartitionProofs DecompModel DecompProofs DofModel DofProofs Level1dModel
  Level1dProofs Hier1dModel Hier1dProofs DistHierModel DistHierProofs DistExchangeProofs.
From Coq Require Import QArith Qcanon.
Open Scope Z_scope.
Ltac Zify.zify_post_hook ::= idtac.

(** ** Closed form of hat hierarchization: only the direct predecessors are read *)

Lemma hatHier_val : forall L lmin a j, 0 <= lmin <= L -> 0 <= j <= 2 ^ L ->
  hatHier L lmin a j =
  (if (0 <? j) && (j <? 2 ^ L) && (lmin <? lev L j)
   then - qhalf * (a (j - 2 ^ (L - lev L j))%Z + a (j + 2 ^ (L - lev L j))%Z) + 1 * a j else a j)%Qc.
Proof.
  intros L lmin a j Hm Hj. rewrite (hatHier_cf L lmin a Hm j). unfold upLevels.
  assert (G : forall k, 0 <= k <= L -> forall i, 0 <= i <= 2 ^ L ->
     fold_left (fun b d => hatLevel L d b) (zrange 0 k) a i =
     (if (0 <? i) && (i <? 2 ^ L) && (L - k <? lev L i)
      then - qhalf * (a (i - 2 ^ (L - lev L i))%Z + a (i + 2 ^ (L - lev L i))%Z) + 1 * a i else a i)%Qc).
  { intros k Hk. rewrite <- (Z2Nat.id k) in * by lia. generalize dependent (Z.to_nat k). clear k. intros k.
    induction k as [|k IH]; intros Hk i Hi.
    - rewrite zrange_nil by lia. simpl fold_left. destruct (_ && _) eqn:C; auto. exfalso.
      rewrite !andb_true_iff, !Z.ltb_lt in C. pose proof (lev_range L i ltac:(lia) Hi). lia.
    - rewrite zrange_snoc by lia. replace (Z.of_nat (S k) - 1) with (Z.of_nat k) by lia.
      rewrite fold_left_app. cbn [fold_left]. specialize (IH ltac:(lia)).
      set (F := fold_left (fun b d => hatLevel L d b) (zrange 0 (Z.of_nat k)) a) in *.
      unfold hatLevel at 1, oddCF.
      destruct (Z.ltb_spec 0 i) as [H0|H0]; cbn [andb].
      2: { rewrite (IH i Hi). destruct (Z.ltb_spec 0 i); [lia|]. reflexivity. }
      destruct (Z.ltb_spec i (2 ^ L)) as [H1|H1]; cbn [andb].
      2: { rewrite (IH i Hi). destruct (Z.ltb_spec i (2 ^ L)); [lia|]. rewrite andb_false_r. reflexivity. }
      assert (Lv : lev L i = L - Z.of_nat k <-> i mod (2 * 2 ^ Z.of_nat k) = 2 ^ Z.of_nat k).
      { pose proof (lev_mod L i (L - Z.of_nat k) ltac:(lia) Hi) as X.
        replace (L - (L - Z.of_nat k)) with (Z.of_nat k) in X by lia. exact X. }
      destruct (Z.eqb_spec (i mod (2 * 2 ^ Z.of_nat k)) (2 ^ Z.of_nat k)) as [E|E].
      + apply Lv in E. rewrite E. replace (L - (L - Z.of_nat k)) with (Z.of_nat k) by lia.
        destruct (Z.ltb_spec (L - Z.of_nat (S k)) (L - Z.of_nat k)) as [_|]; [|lia].
        pose proof (pred_range L 0 ltac:(lia) i Hi ltac:(lia)) as PR. rewrite E in PR.
        replace (L - (L - Z.of_nat k)) with (Z.of_nat k) in PR by lia.
        assert (U : forall e, (e = 1 \/ e = -1) -> F (i + e * 2 ^ Z.of_nat k) = a (i + e * 2 ^ Z.of_nat k)).
        { intros e He. assert (R : 0 <= i + e * 2 ^ Z.of_nat k <= 2 ^ L) by (destruct He as [-> | ->]; lia).
          rewrite (IH _ R). pose proof (pred_lev L 0 ltac:(lia) i e Hi ltac:(lia) He) as PL. cbv zeta in PL. rewrite E in PL.
          replace (L - (L - Z.of_nat k)) with (Z.of_nat k) in PL by lia. specialize (PL R).
          destruct (_ && _) eqn:C; auto. exfalso. rewrite !andb_true_iff, !Z.ltb_lt in C. lia. }
        replace (i - 2 ^ Z.of_nat k) with (i + -1 * 2 ^ Z.of_nat k) by ring.
        replace (i + 2 ^ Z.of_nat k) with (i + 1 * 2 ^ Z.of_nat k) by ring.
        rewrite !U by auto. rewrite (IH i Hi). rewrite E.
        destruct (Z.ltb_spec (L - Z.of_nat k) (L - Z.of_nat k)); [lia|]. rewrite andb_false_r. reflexivity.
      + rewrite (IH i Hi). destruct (Z.ltb_spec 0 i); [|lia]. destruct (Z.ltb_spec i (2 ^ L)); [|lia]. cbn [andb].
        assert ((L - Z.of_nat k <? lev L i) = (L - Z.of_nat (S k) <? lev L i)) as ->; [|reflexivity].
        assert (lev L i <> L - Z.of_nat k) by tauto.
        destruct (Z.ltb_spec (L - Z.of_nat k) (lev L i)); destruct (Z.ltb_spec (L - Z.of_nat (S k)) (lev L i)); lia. }
  rewrite (G (L - lmin) ltac:(lia) j Hj). replace (L - (L - lmin)) with lmin by ring. reflexivity.
Qed.

(** The same for grids without boundary points; [j] runs over the local points. *)
Lemma nbHier_val : forall L lo up a j, 1 <= L <= 28 -> 0 <= lo -> up <= 2 ^ L - 1 -> lo <= j < up ->
  noBoundaryHier L (2 ^ L - 1) lo up a j = nbVal (- (1))%Qc (2 ^ L - 1) (2 ^ (L - lev L (j + 1))) a j.
Proof.
  intros L lo up a j HL Hlo Hup Hj. rewrite (nbHier_cf L (2 ^ L - 1) lo up a HL Hlo Hup j).
  (* after the levels l+1..L are done *)
  assert (RV : forall k, rev (zseq 1 (S k)) = (1 + Z.of_nat k) :: rev (zseq 1 k)).
  { intros k. rewrite rev_zseq_S. reflexivity. }
  assert (G : forall k c, Z.of_nat k <= L ->
     (forall i, 0 <= i < 2 ^ L - 1 -> lev L (i + 1) <= Z.of_nat k -> c i = a i) ->
     forall i, lo <= i < up ->
     fold_left (fun b l => nbCF (- (1))%Qc (2 ^ L - 1) (2 ^ (L - l)) lo up b) (rev (zseq 1 k)) c i =
     if lev L (i + 1) <=? Z.of_nat k then nbVal (- (1))%Qc (2 ^ L - 1) (2 ^ (L - lev L (i + 1))) a i else c i).
  { induction k as [|k IH]; intros c Hk Hc i Hi.
    - simpl fold_left. pose proof (lev_range L (i + 1) ltac:(lia) ltac:(lia)) as LR.
      destruct (Z.leb_spec (lev L (i + 1)) (Z.of_nat 0)); auto. exfalso.
      assert (lev L (i + 1) = 0) as E0 by lia. apply lev_zero in E0; lia.
    - rewrite RV. cbn [fold_left]. replace (1 + Z.of_nat k) with (Z.of_nat (S k)) by lia.
      set (l := Z.of_nat (S k)) in *. pose proof (pow2_pos (L - l) ltac:(lia)) as Pw.
      assert (Lv : forall x, 0 <= x < 2 ^ L - 1 -> (lev L (x + 1) = l <-> (x + 1) mod (2 * 2 ^ (L - l)) = 2 ^ (L - l))).
      { intros x Hx. apply lev_mod; lia. }
      rewrite IH; [|lia| |auto].
      + unfold nbCF. destruct (Z.leb_spec (lev L (i + 1)) (Z.of_nat k)).
        * destruct (Z.leb_spec (lev L (i + 1)) l); [reflexivity|lia].
        * destruct (Z.leb_spec lo i); [|lia]. destruct (Z.ltb_spec i up); [|lia]. cbn [andb].
          destruct (Z.leb_spec (lev L (i + 1)) l).
          -- assert (E : lev L (i + 1) = l) by lia. pose proof (proj1 (Lv i ltac:(lia)) E) as M.
             rewrite (proj2 (Z.eqb_eq _ _) M). rewrite E.
             assert (CA : forall e, (e = 1 \/ e = -1) -> 0 <= i + e * 2 ^ (L - l) < 2 ^ L - 1 ->
                        c (i + e * 2 ^ (L - l)) = a (i + e * 2 ^ (L - l))).
             { intros e He R. apply Hc; auto.
               pose proof (pred_lev L 0 ltac:(lia) (i + 1) e ltac:(lia) ltac:(lia) He) as PL. cbv zeta in PL. rewrite E in PL.
               replace (i + 1 + e * 2 ^ (L - l)) with (i + e * 2 ^ (L - l) + 1) in PL by ring.
               specialize (PL ltac:(lia)). lia. }
             unfold nbVal. rewrite (Hc i) by lia.
             destruct (Z.ltb_spec (i + 2 ^ (L - l)) (2 ^ L - 1)) as [R1|R1].
             ++ replace (i + 2 ^ (L - l)) with (i + 1 * 2 ^ (L - l)) in * by ring. rewrite CA by (auto; lia).
                rewrite Z.gtb_ltb. destruct (Z.ltb_spec 0 (i - 2 ^ (L - l))) as [R2|R2]; [|reflexivity].
                replace (i - 2 ^ (L - l)) with (i + -1 * 2 ^ (L - l)) in * by ring. rewrite CA by (auto; lia). reflexivity.
             ++ rewrite Z.gtb_ltb. destruct (Z.ltb_spec 0 (i - 2 ^ (L - l))) as [R2|R2]; [|reflexivity].
                replace (i - 2 ^ (L - l)) with (i + -1 * 2 ^ (L - l)) in * by ring. rewrite CA by (auto; lia). reflexivity.
          -- destruct (Z.eqb_spec ((i + 1) mod (2 * 2 ^ (L - l))) (2 ^ (L - l))) as [M|M]; [|reflexivity].
             apply Lv in M; lia.
      + intros x Hx Hxl. unfold nbCF. destruct (Z.eqb_spec ((x + 1) mod (2 * 2 ^ (L - l))) (2 ^ (L - l))) as [M|M].
        * apply Lv in M; lia.
        * rewrite andb_false_r. apply Hc; lia. }
  unfold zrange. replace (L + 1 - 1) with L by ring. rewrite (G (Z.to_nat L) a); auto; try lia.
  pose proof (lev_range L (j + 1) ltac:(lia) ltac:(lia)). destruct (Z.leb_spec (lev L (j + 1)) (Z.of_nat (Z.to_nat L))); [reflexivity|lia].
Qed.

(** Dehierarchization without boundary points reads hierarchical predecessors only. *)
Lemma nbDehier_agree : forall (S : Z -> Prop) L a b, 1 <= L <= 28 ->
  (forall j e, S j -> 0 <= j < 2 ^ L - 1 -> (e = 1 \/ e = -1) ->
     let r := j + e * 2 ^ (L - lev L (j + 1)) in 0 <= r < 2 ^ L - 1 -> S r) ->
  agree (fun j => S j /\ 0 <= j < 2 ^ L - 1) a b ->
  agree (fun j => S j /\ 0 <= j < 2 ^ L - 1) (noBoundaryDehier L (2 ^ L - 1) a) (noBoundaryDehier L (2 ^ L - 1) b).
Proof.
  intros S L a b HL HS H.
  eapply agree_eqA; [apply nbDehier_cf; auto|apply nbDehier_cf; auto|].
  apply (fold_agree _ (fun l => nbCF 1%Qc (2 ^ L - 1) (2 ^ (L - l)) 0 (2 ^ L - 1))
                      (fun l => nbCF 1%Qc (2 ^ L - 1) (2 ^ (L - l)) 0 (2 ^ L - 1))); auto.
  intros l u v Hl Huv j [Sj Hj]. apply zrange_In in Hl. pose proof (pow2_pos (L - l) ltac:(lia)) as Pw.
  unfold nbCF. destruct (Z.eqb_spec ((j + 1) mod (2 * 2 ^ (L - l))) (2 ^ (L - l))) as [M|M].
  2: { rewrite !andb_false_r. apply Huv. auto. }
  apply lev_mod in M; try lia. rewrite andb_true_r. destruct (_ && _) eqn:C; [|apply Huv; auto]. unfold nbVal.
  rewrite (Huv j) by auto.
  assert (UV : forall e, (e = 1 \/ e = -1) -> 0 <= j + e * 2 ^ (L - l) < 2 ^ L - 1 ->
             u (j + e * 2 ^ (L - l)) = v (j + e * 2 ^ (L - l))).
  { intros e He R. apply Huv. split; auto. pose proof (HS j e Sj Hj He) as X. cbv zeta in X. rewrite M in X. auto. }
  replace (j + 2 ^ (L - l)) with (j + 1 * 2 ^ (L - l)) by ring. replace (j - 2 ^ (L - l)) with (j + -1 * 2 ^ (L - l)) by ring.
  destruct (Z.ltb_spec (j + 1 * 2 ^ (L - l)) (2 ^ L - 1)) as [R1|R1]; rewrite Z.gtb_ltb;
    destruct (Z.ltb_spec 0 (j + -1 * 2 ^ (L - l))) as [R2|R2];
    try rewrite (UV 1) by (auto; lia); try rewrite (UV (-1)) by (auto; lia); reflexivity.
Qed.

Lemma anc_trans : forall L lmin, 0 <= lmin < L -> forall x y r, 0 <= x <= 2 ^ L -> 0 <= y <= 2 ^ L -> 0 <= r <= 2 ^ L ->
  Anc L lmin x y -> Anc L lmin y r -> Anc L lmin x r.
Proof.
  intros L lmin HL x y r Hx Hyx R0 A A2.
  pose proof (anc_lev L lmin HL x y Hx Hyx A) as L1. pose proof (anc_lev L lmin HL y r Hyx R0 A2) as L2.
  pose proof (lev_range L y ltac:(lia) Hyx). pose proof (lev_range L r ltac:(lia) R0).
  pose proof (lev_range L x ltac:(lia) Hx).
  destruct (W_mult L lmin HL y Hyx) as [qy Eqy]. destruct (W_mult L lmin HL r R0) as [qr Eqr].
  assert (Wy : W L lmin y = 2 ^ (L - lev L y)) by (unfold W; f_equal; lia).
  destruct (pow_mult L (Z.max lmin (lev L r)) (lev L y)) as (k & Hk & Ek); [lia|].
  fold (W L lmin r) in Ek. rewrite <- Wy in Ek. pose proof (W_pos L lmin HL y Hyx) as Pw.
  destruct A as [_ A]. destruct A2 as [B1 B2]. rewrite Ek in *. unfold Anc. rewrite Ek.
  set (w := W L lmin y) in *. clearbody w. clear Wy Ek.
  pose proof (mul_step w (k * qr) qy Pw). pose proof (mul_step w qy (k * qr) Pw).
  pose proof (mul_step w qy (k * qr + k) Pw). pose proof (mul_step w (k * qr - k) qy Pw). lia.
Qed.

(** ** The received values *)

Lemma in_combine_map : forall (g : Z -> Qc) l i v, In (i, v) (combine l (map g l)) <-> In i l /\ v = g i.
Proof.
  induction l as [|x l IH]; simpl; intros i v; [tauto|]. rewrite IH. split.
  - intros [E | [H ->]]; [inv E|]; auto.
  - intros [[-> | H] ->]; auto.
Qed.

Lemma fold_pairs : forall (g : Z -> Qc) rs t j, (forall i v, In (i, v) rs -> v = g i) ->
  ((exists v, In (j, v) rs) -> fold_left (fun t r => setA t (fst r) (snd r)) rs t j = g j) /\
  (~ (exists v, In (j, v) rs) -> fold_left (fun t r => setA t (fst r) (snd r)) rs t j = t j).
Proof.
  intros g. induction rs as [|[i v] rs IH]; intros t j H.
  - simpl. split; [intros [? []]|auto].
  - cbn [fold_left fst snd]. destruct (IH (setA t i v) j) as [H1 H2]; [intros; apply H; now right|].
    assert (Dec : (exists v, In (j, v) rs) \/ ~ (exists v, In (j, v) rs)).
    { destruct (in_dec Z.eq_dec j (map fst rs)) as [I|I].
      - left. apply in_map_iff in I. destruct I as [[j' v'] [E I]]. simpl in E. subst. eauto.
      - right. intros [v' I']. apply I. apply in_map_iff. exists (j, v'). auto. }
    destruct Dec as [D|D].
    + split; [intros _; auto|]. intros N. exfalso. apply N. destruct D as [v' D]. exists v'. now right.
    + split.
      * intros [v' [E | E]]; [|exfalso; eauto]. inv E. rewrite H2 by auto. rewrite setA_same. apply H. now left.
      * intros N. rewrite H2 by auto. apply setA_other. intros ->. apply N. exists v. now left.
Qed.

Lemma loadPole_end1 : forall b n lo up stale remote local, b = 1 -> 0 < n ->
  loadPole b n lo up stale remote local n = loadPole b n lo up stale remote local 0.
Proof. intros b n lo up stale remote local -> H. now apply loadPole_end. Qed.

Section DistPole.
Variables (b L lmin n : Z) (dec1 : list Z).
Hypothesis Hb : 0 <= b <= 2.
Hypothesis HL : 0 <= lmin < L.
Hypothesis HL28 : L <= 28.
Hypothesis Hn : n = 2 ^ L + b - 1.
Hypothesis HV : validDec1 dec1 n.

Notation pos := (gridPos b).
Notation owner := (neighbor1dPartition dec1 n).
Notation isPart c := (0 <= c < Z.of_nat (length dec1)).

Lemma own_local : forall c x, isPart c -> 0 <= x < n ->
  (owner x = c <-> firstIdx dec1 c <= x <= lastIdx dec1 n c).
Proof. exact (owner_local 0 n dec1 HV). Qed.
Lemma own_range : forall c, isPart c -> 0 <= firstIdx dec1 c <= lastIdx dec1 n c /\ lastIdx dec1 n c < n.
Proof. intros c Hc. pose proof (part_range 0 n dec1 HV c Hc). lia. Qed.
Lemma np : 0 < n. Proof. exact (n_pos b L lmin n Hb HL Hn). Qed.
Lemma hier_recvs : forall c o i, isPart c ->
  (In (o, i) (hierRecvMap b L lmin dec1 n c) <-> recvSpec b n dec1 (Dir L lmin) c o i).
Proof. exact (hier_recv_spec b L lmin n dec1 Hb HL HL28 Hn HV). Qed.
Lemma dehier_recvs : forall c o i, isPart c ->
  (In (o, i) (dehierRecvMap b L lmin dec1 n c) <-> recvSpec b n dec1 (Anc L lmin) c o i).
Proof. exact (dehier_recv_spec b L lmin n dec1 Hb HL Hn HV). Qed.
Lemma all_recvs : forall c o i, isPart c ->
  (In (o, i) (allRecvMap dec1 n c) <-> 0 <= i < n /\ ~ (firstIdx dec1 c <= i <= lastIdx dec1 n c) /\ owner i = o).
Proof. exact (all_recv_In b L n dec1 Hn HV). Qed.

Lemma exch_matches : forall f dehier c q, isPart c -> isPart q ->
  entryOf (exchSends f dehier b L lmin dec1 n c) q = entryOf (exchRecvs f dehier b L lmin dec1 n q) c.
Proof.
  intros f dehier c q Hc Hq. unfold exchSends, exchRecvs.
  destruct f, dehier; first [exact (dehier_exchange_matches b L lmin n dec1 Hb HL HL28 Hn HV c q Hc Hq)
    | exact (hier_exchange_matches b L lmin n dec1 Hb HL HL28 Hn HV c q Hc Hq)
    | exact (all_exchange_matches b L lmin n dec1 Hb HL Hn HV c q Hc Hq)].
Qed.

(** What is requested from [c] belongs to [c]. *)
Lemma recv_owner : forall f dehier q c i, isPart q -> In (c, i) (exchRecvs f dehier b L lmin dec1 n q) ->
  0 <= i < n /\ owner i = c /\ c <> q.
Proof.
  intros f dehier q c i Hq H. pose proof (np) as Np.
  assert (G : forall Rel, recvSpec b n dec1 Rel q c i -> 0 <= i < n /\ owner i = c /\ c <> q).
  { intros Rel (x & r & _ & _ & _ & [(Hr & Nr & -> & ->) | (_ & -> & F & -> & ->)]).
    - split; auto. split; auto. intros E. apply (own_local q r Hq Hr) in E. lia.
    - split; [lia|]. split; auto. intros E. apply (own_local q 0 Hq ltac:(lia)) in E. lia. }
  assert (A : In (c, i) (allRecvMap dec1 n q) -> 0 <= i < n /\ owner i = c /\ c <> q).
  { intros X. apply all_recvs in X; auto. destruct X as (X1 & X2 & X3). split; auto. split; auto.
    intros E. apply X2. apply (own_local q i Hq X1). congruence. }
  unfold exchRecvs in H. destruct f; try (apply A; exact H); destruct dehier;
    try (apply dehier_recvs in H; auto; eapply G; exact H); apply hier_recvs in H; auto; eapply G; exact H.
Qed.

Variables (g : arr) (locals : Z -> arr).
Hypothesis Hlocals : forall c, isPart c -> forall i, firstIdx dec1 c <= i <= lastIdx dec1 n c -> locals c i = g i.

Lemma received_In : forall f dehier q i v, isPart q ->
  (In (i, v) (received f dehier b L lmin dec1 n q locals) <->
   v = g i /\ exists c, isPart c /\ In (c, i) (exchRecvs f dehier b L lmin dec1 n q)).
Proof.
  intros f dehier q i v Hq. unfold received. rewrite in_flat_map. split.
  - intros (c & Hc & H). apply zrange_In in Hc. rewrite exch_matches in H by auto. apply in_combine_map in H.
    destruct H as [Hi ->]. apply entryOf_In in Hi. destruct (recv_owner f dehier q c i Hq Hi) as (Hi0 & O & _).
    split; [|eauto]. apply Hlocals; auto. apply own_local; auto.
  - intros (-> & c & Hc & H). exists c. split; [apply zrange_In; auto|]. rewrite exch_matches by auto.
    apply in_combine_map. split; [now apply entryOf_In|].
    destruct (recv_owner f dehier q c i Hq H) as (Hi0 & O & _). symmetry. apply Hlocals; auto. apply own_local; auto.
Qed.

(** The values of the whole pole, with the virtual last value of one-sided grids. *)
Definition gx : arr := fun j => if (b =? 1) && (j =? 2 ^ L) then g 0 else g j.

Definition has (f : basis) (dehier : bool) (q j : Z) : Prop :=
  firstIdx dec1 q <= j <= lastIdx dec1 n q \/ exists c, In (c, j) (exchRecvs f dehier b L lmin dec1 n q).

Lemma load_has : forall f dehier q stale j, isPart q -> 0 <= j < n -> has f dehier q j ->
  loadPole b n (firstIdx dec1 q) (lastIdx dec1 n q + 1) stale (received f dehier b L lmin dec1 n q locals) (locals q) j = g j.
Proof.
  intros f dehier q stale j Hq Hj Hh. pose proof (own_range q Hq) as P.
  destruct (Z_lt_le_dec j (firstIdx dec1 q)) as [H1|H1]; [|destruct (Z_lt_le_dec (lastIdx dec1 n q) j) as [H2|H2]].
  3: { rewrite loadPole_local by lia. apply Hlocals; auto. }
  1, 2: destruct Hh as [Hh | [c Hh]]; [lia|].
  1, 2: unfold loadPole; cbv zeta.
  1, 2: assert (E : fold_left (fun t i => setA t i (locals q i)) (zrange (firstIdx dec1 q) (lastIdx dec1 n q + 1))
          (fold_left (fun t r => setA t (fst r) (snd r)) (received f dehier b L lmin dec1 n q locals) stale) j = g j).
  1, 3: rewrite fold_setA_out by (rewrite zrange_In; lia); apply fold_pairs;
        [intros i v Hv; apply received_In in Hv; tauto|
         exists (g j); apply received_In; auto; split; auto; exists c; split; auto].
  1, 2: destruct (recv_owner f dehier q c j Hq Hh) as (_ & O & _); rewrite <- O; now apply (neighbor1dPartition_spec dec1 n j HV).
  1, 2: destruct (b =? 1); auto; rewrite setA_other by lia; exact E.
Qed.

Notation load f dehier q stale := (loadPole b n (firstIdx dec1 q) (lastIdx dec1 n q + 1) stale
  (received f dehier b L lmin dec1 n q locals) (locals q)).

Lemma load_rel : forall (Rel : Z -> Z -> Prop) f dehier q stale x r, isPart q ->
  (forall o i, In (o, i) (exchRecvs f dehier b L lmin dec1 n q) <-> recvSpec b n dec1 Rel q o i) ->
  firstIdx dec1 q <= x <= lastIdx dec1 n q -> ext b n r -> Rel (pos x) (pos r) ->
  load f dehier q stale r = gx r.
Proof.
  intros Rel f dehier q stale x r Hq HS Lx Er HR. pose proof (own_range q Hq) as P.
  pose proof (np) as Np. unfold gx.
  destruct Er as [Hr | [B ->]].
  - assert (((b =? 1) && (r =? 2 ^ L))%bool = false) as ->.
    { destruct (Z.eqb_spec b 1); auto. destruct (Z.eqb_spec r (2 ^ L)); auto. lia. }
    apply load_has; auto.
    destruct (Z_lt_le_dec r (firstIdx dec1 q)) as [H1|H1]; [|destruct (Z_lt_le_dec (lastIdx dec1 n q) r) as [H2|H2]];
      [right|right|left; lia]; exists (owner r); apply HS; exists x, r; (split; [auto|]; split; [now left|]; split; [auto|]);
      left; repeat split; auto; lia.
  - rewrite (proj2 (Z.eqb_eq b 1) B). rewrite (proj2 (Z.eqb_eq n (2 ^ L))) by lia. cbn [andb].
    assert (E : load f dehier q stale n = load f dehier q stale 0).
    { now apply loadPole_end1. }
    rewrite E. apply load_has; auto; [lia|].
    destruct (Z.eq_dec (firstIdx dec1 q) 0) as [F|F]; [left; lia|]. right. exists (owner 0). apply HS.
    exists x, n. split; auto. split; [right; auto|]. split; auto. right. repeat split; auto; lia.
Qed.

Lemma load_local : forall f dehier q stale x, isPart q -> firstIdx dec1 q <= x <= lastIdx dec1 n q ->
  load f dehier q stale x = gx x.
Proof.
  intros f dehier q stale x Hq Lx. pose proof (own_range q Hq) as P. unfold gx.
  assert (((b =? 1) && (x =? 2 ^ L))%bool = false) as ->.
  { destruct (Z.eqb_spec b 1); auto. destruct (Z.eqb_spec x (2 ^ L)); auto. lia. }
  apply load_has; auto; [lia|]. now left.
Qed.

Lemma load_all : forall f dehier q stale, isPart q -> (f <> Hat /\ f <> HatPeriodic) -> 1 <= b ->
  agree (onRange (2 ^ L)) (load f dehier q stale) gx.
Proof.
  intros f dehier q stale Hq [F1 F2] B j Hj. unfold onRange in Hj. pose proof (own_range q Hq) as P.
  pose proof (np) as Np. unfold gx.
  assert (ER : exchRecvs f dehier b L lmin dec1 n q = allRecvMap dec1 n q) by (unfold exchRecvs; destruct f; tauto).
  assert (A : forall i, 0 <= i < n -> load f dehier q stale i = g i).
  { intros i Hi. apply load_has; auto. unfold has. rewrite ER.
    destruct (Z_lt_le_dec i (firstIdx dec1 q)) as [H1|H1]; [|destruct (Z_lt_le_dec (lastIdx dec1 n q) i) as [H2|H2]];
      [right|right|left; lia]; exists (owner i); apply all_recvs; auto; repeat split; auto; lia. }
  destruct (Z.eqb_spec b 1) as [B1|]; cbn [andb]; [|apply A; lia].
  destruct (Z.eqb_spec j (2 ^ L)) as [->|]; [|apply A; lia].
  replace (2 ^ L) with n by lia.
  rewrite loadPole_end1 by auto. apply A. lia.
Qed.

(** ** Distributed and serial poles agree *)

Lemma serial_load : forall stale, 1 <= b -> agree (onRange (2 ^ L)) (loadPole b n 0 n stale [] g) gx.
Proof. intros stale B. apply loadPole_serial; lia. Qed.

Lemma hat_boundary : forall f (dehier : bool) q stale j, isPart q -> 1 <= b -> (f = Hat \/ f = HatPeriodic) ->
  firstIdx dec1 q <= j <= lastIdx dec1 n q ->
  (if dehier then dehierKernel else hierKernel) f L lmin (load f dehier q stale) j =
  (if dehier then dehierKernel else hierKernel) f L lmin gx j.
Proof.
  intros f dehier q stale j Hq B Hf Hj. pose proof (own_range q Hq) as P.
  assert (Hj0 : 0 <= j < n) by lia. pose proof (pos_range b L lmin n Hb HL Hn j Hj0) as PR.
  assert (PE : forall i, pos i = i) by (intros i; unfold gridPos; destruct (Z.eqb_spec b 0); lia).
  destruct dehier.
  - (* all ancestors are loaded *)
    set (S := fun r => (firstIdx dec1 q <= r <= lastIdx dec1 n q) \/
                 (ext b n r /\ exists x, firstIdx dec1 q <= x <= lastIdx dec1 n q /\ Anc L lmin x r)).
    assert (HS : forall o i, In (o, i) (exchRecvs f true b L lmin dec1 n q) <-> recvSpec b n dec1 (Anc L lmin) q o i).
    { intros o i. destruct Hf as [-> | ->]; apply dehier_recvs; auto. }
    assert (AG : agree S (load f true q stale) gx).
    { intros r [Hr | [Er (x & Lx & A)]]; [now apply load_local|].
      apply (load_rel (Anc L lmin) f true q stale x r); auto. rewrite !PE. exact A. }
    assert (PC : predClosed S L lmin).
    { intros d y Hd Sy Hy M.
      assert (Ly : lev L y = L - d). { apply lev_mod; try lia. replace (L - (L - d)) with d by lia. exact M. }
      pose proof (pred_range L lmin HL y ltac:(lia) ltac:(lia)) as PRy. rewrite Ly in PRy.
      replace (L - (L - d)) with d in PRy by lia.
      assert (X : forall e, (e = 1 \/ e = -1) -> S (y + e * 2 ^ d)).
      { intros e He. right. assert (R0 : 0 <= y + e * 2 ^ d <= 2 ^ L) by (destruct He as [-> | ->]; lia).
        split.
        { unfold ext. destruct (Z.eq_dec b 1); [|lia]. destruct (Z.eq_dec (y + e * 2 ^ d) n); [right; auto|left; lia]. }
        assert (D : Dir L lmin y (y + e * 2 ^ d)).
        { apply (dir_pred L lmin HL). rewrite Ly. split; [lia|]. exists e. split; auto.
          replace (L - (L - d)) with d by lia. reflexivity. }
        destruct Sy as [Ly' | [Ey (x & Lx & A)]].
        - exists y. split; auto. apply (dir_anc L lmin HL); auto; lia.
        - exists x. split; auto.
          apply (anc_trans L lmin HL x y); auto; try lia. apply (dir_anc L lmin HL); auto; lia. }
      replace (y - 2 ^ d) with (y + -1 * 2 ^ d) by ring. replace (y + 2 ^ d) with (y + 1 * 2 ^ d) by ring. auto. }
    assert (Sj : S j) by (left; auto).
    destruct Hf as [-> | ->]; cbn [dehierKernel]; apply (hatDehier_agree S L lmin); auto; lia.
  - assert (HS : forall o i, In (o, i) (exchRecvs f false b L lmin dec1 n q) <-> recvSpec b n dec1 (Dir L lmin) q o i).
    { intros o i. destruct Hf as [-> | ->]; apply hier_recvs; auto. }
    assert (V : hatHier L lmin (load f false q stale) j = hatHier L lmin gx j).
    { rewrite PE in PR. rewrite !hatHier_val by lia.
      destruct ((0 <? j) && (j <? 2 ^ L) && (lmin <? lev L j))%bool eqn:C; [|now apply load_local].
      rewrite !andb_true_iff, !Z.ltb_lt in C. destruct C as [[C1 C2] C3].
      pose proof (pred_range L lmin HL j ltac:(lia) ltac:(lia)) as PRj.
      assert (X : forall e, (e = 1 \/ e = -1) ->
         load f false q stale (j + e * 2 ^ (L - lev L j)) = gx (j + e * 2 ^ (L - lev L j))).
      { intros e He. apply (load_rel (Dir L lmin) f false q stale j); auto.
        - assert (R0 : 0 <= j + e * 2 ^ (L - lev L j) <= 2 ^ L) by (destruct He as [-> | ->]; lia).
          unfold ext. destruct (Z.eq_dec b 1); [|lia]. destruct (Z.eq_dec (j + e * 2 ^ (L - lev L j)) n); [right; auto|left; lia].
        - rewrite !PE. apply (dir_pred L lmin HL). split; auto. exists e. auto. }
      replace (j - 2 ^ (L - lev L j)) with (j + -1 * 2 ^ (L - lev L j)) by ring.
      replace (j + 2 ^ (L - lev L j)) with (j + 1 * 2 ^ (L - lev L j)) by ring.
      rewrite !X by auto. rewrite load_local by auto. reflexivity. }
    destruct Hf as [-> | ->]; exact V.
Qed.
Lemma hat_no_boundary : forall (dehier : bool) q stale j, isPart q -> b = 0 -> lmin = 0 ->
  firstIdx dec1 q <= j <= lastIdx dec1 n q ->
  (if dehier then noBoundaryDehier L n (load Hat dehier q stale)
   else noBoundaryHier L n (firstIdx dec1 q) (lastIdx dec1 n q + 1) (load Hat dehier q stale)) j =
  (if dehier then noBoundaryDehier L n g else noBoundaryHier L n 0 n g) j.
Proof.
  intros dehier q stale j Hq B M Hj. pose proof (own_range q Hq) as P.
  assert (PE : forall i, pos i = i + 1) by (intros i; unfold gridPos; destruct (Z.eqb_spec b 0); lia).
  assert (GX : forall i, gx i = g i) by (intros i; unfold gx; destruct (Z.eqb_spec b 1); [lia|reflexivity]).
  assert (En : n = 2 ^ L - 1) by lia.
  destruct dehier.
  - set (S := fun r => (firstIdx dec1 q <= r <= lastIdx dec1 n q) \/
                 (exists x, firstIdx dec1 q <= x <= lastIdx dec1 n q /\ Anc L lmin (x + 1) (r + 1))).
    assert (HS : forall o i, In (o, i) (exchRecvs Hat true b L lmin dec1 n q) <-> recvSpec b n dec1 (Anc L lmin) q o i).
    { intros o i. apply dehier_recvs; auto. }
    pose proof (nbDehier_agree S L (load Hat true q stale) g ltac:(lia)) as NB. rewrite <- En in NB.
    apply NB; [| |split; [left; auto|lia]].
    + intros y e Sy Hy He r Hr.
      assert (L1 : 1 <= lev L (y + 1)).
      { pose proof (lev_range L (y + 1) ltac:(lia) ltac:(lia)). destruct (Z.eq_dec (lev L (y + 1)) 0) as [E|]; [|lia].
        apply lev_zero in E; lia. }
      assert (D : Dir L lmin (y + 1) (r + 1)).
      { apply (dir_pred L lmin HL). split; [lia|]. exists e. split; auto. unfold r. ring. }
      apply (dir_anc L lmin HL) in D; try lia. right. destruct Sy as [Ly | (x & Lx & A)].
      * exists y. auto.
      * exists x. split; auto. apply (anc_trans L lmin HL (x + 1) (y + 1)); auto; lia.
    + intros r [[Hr | (x & Lx & A)] Hr0]; [rewrite <- GX; now apply load_local|].
      rewrite <- GX. apply (load_rel (Anc L lmin) Hat true q stale x r); auto; [left; lia|]. rewrite !PE. exact A.
  - assert (HS : forall o i, In (o, i) (exchRecvs Hat false b L lmin dec1 n q) <-> recvSpec b n dec1 (Dir L lmin) q o i).
    { intros o i. apply hier_recvs; auto. }
    pose proof (nbHier_val L (firstIdx dec1 q) (lastIdx dec1 n q + 1) (load Hat false q stale) j ltac:(lia) ltac:(lia)
      ltac:(lia) ltac:(lia)) as V1. pose proof (nbHier_val L 0 n g j ltac:(lia) ltac:(lia) ltac:(lia) ltac:(lia)) as V2.
    rewrite <- En in V1, V2. rewrite V1, V2. clear V1 V2.
    assert (L1 : 1 <= lev L (j + 1)).
    { pose proof (lev_range L (j + 1) ltac:(lia) ltac:(lia)). destruct (Z.eq_dec (lev L (j + 1)) 0) as [E|]; [|lia].
      apply lev_zero in E; lia. }
    assert (X : forall e, (e = 1 \/ e = -1) -> 0 <= j + e * 2 ^ (L - lev L (j + 1)) < n ->
       load Hat false q stale (j + e * 2 ^ (L - lev L (j + 1))) = g (j + e * 2 ^ (L - lev L (j + 1)))).
    { intros e He R. rewrite <- GX. apply (load_rel (Dir L lmin) Hat false q stale j); auto; [left; lia|].
      rewrite !PE. apply (dir_pred L lmin HL). split; [lia|]. exists e. split; auto. ring. }
    pose proof (pow2_pos (L - lev L (j + 1))) as Pw. pose proof (lev_range L (j + 1) ltac:(lia) ltac:(lia)).
    unfold nbVal. rewrite (load_local Hat false q stale j Hq Hj), GX.
    replace (j + 2 ^ (L - lev L (j + 1))) with (j + 1 * 2 ^ (L - lev L (j + 1))) by ring.
    replace (j - 2 ^ (L - lev L (j + 1))) with (j + -1 * 2 ^ (L - lev L (j + 1))) by ring.
    rewrite !Z.gtb_ltb. destruct (Z.ltb_spec (j + 1 * 2 ^ (L - lev L (j + 1))) n) as [R1|R1];
      destruct (Z.ltb_spec 0 (j + -1 * 2 ^ (L - lev L (j + 1)))) as [R2|R2];
      try rewrite (X 1) by (auto; lia); try rewrite (X (-1)) by (auto; lia); reflexivity.
Qed.

(** The values of the own points after the distributed sweep are those of the serial sweep over the whole pole. *)
Lemma distPole_serial : forall f (dehier : bool) q stale stale', isPart q -> (b = 0 -> lmin = 0) ->
  match distPole f dehier b L lmin dec1 n q stale locals,
        (if dehier then dehierPole else hierPole) f b L lmin n 0 n stale' [] g with
  | Some u, Some v => forall j, firstIdx dec1 q <= j <= lastIdx dec1 n q -> u j = v j
  | None, None => True
  | _, _ => False
  end.
Proof.
  intros f dehier q stale stale' Hq B0. pose proof (own_range q Hq) as P. pose proof np as Np. unfold distPole.
  assert (lmin >=? L = false) as EL by (rewrite Z.geb_leb; apply Z.leb_gt; lia).
  assert (K : 1 <= b -> forall j, firstIdx dec1 q <= j <= lastIdx dec1 n q ->
     (if dehier then dehierKernel else hierKernel) f L lmin (load f dehier q stale) j =
     (if dehier then dehierKernel else hierKernel) f L lmin (loadPole b n 0 n stale' [] g) j).
  { intros B j Hj. transitivity ((if dehier then dehierKernel else hierKernel) f L lmin gx j).
    - assert (C : (f = Hat \/ f = HatPeriodic) \/ (f <> Hat /\ f <> HatPeriodic)) by (destruct f; intuition discriminate).
      destruct C as [C|C]; [now apply hat_boundary|].
      destruct (kernel_agree f L lmin (load f dehier q stale) gx) as [K1 K2]; try lia; [now apply load_all|].
      assert (onRange (2 ^ L) j) by (unfold onRange; lia). destruct dehier; auto.
    - symmetry. destruct (kernel_agree f L lmin (loadPole b n 0 n stale' [] g) gx) as [K1 K2]; try lia; [now apply serial_load|].
      assert (onRange (2 ^ L) j) by (unfold onRange; lia). destruct dehier; auto. }
  destruct (Z.eq_dec b 0) as [B|B].
  - assert (NB : forall j, firstIdx dec1 q <= j <= lastIdx dec1 n q ->
      (if dehier then noBoundaryDehier L n (load Hat dehier q stale)
       else noBoundaryHier L n (firstIdx dec1 q) (lastIdx dec1 n q + 1) (load Hat dehier q stale)) j =
      (if dehier then noBoundaryDehier L n (loadPole b n 0 n stale' [] g) else noBoundaryHier L n 0 n (loadPole b n 0 n stale' [] g)) j).
    { intros j Hj. rewrite (hat_no_boundary dehier q stale j) by auto. symmetry.
      pose proof (nbKernel_agree L (loadPole b n 0 n stale' [] g) g ltac:(lia)) as NA. cbv zeta in NA.
      replace (2 ^ L - 1) with n in NA by lia. destruct NA as [N1 N2].
      - intros i Hi. apply loadPole_local; lia.
      - destruct dehier; [apply N2|apply N1]; lia. }
    assert (b >? 0 = false) as EB by (rewrite Z.gtb_ltb; apply Z.ltb_ge; lia).
    destruct dehier; unfold dehierPole, hierPole; rewrite EL, EB; destruct f; auto.
  - assert (b >? 0 = true) as EB by (rewrite Z.gtb_ltb; apply Z.ltb_lt; lia).
    specialize (K ltac:(lia)). destruct dehier; unfold dehierPole, hierPole; rewrite EL, EB; exact K.
Qed.
End DistPole.
