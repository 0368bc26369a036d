(** Properties C21 (distributed poles) and C22 (matching of the ghost exchange). *)
From Verif Require Import Base PartitionModel PartitionProofs Level1dModel Level1dProofs Hier1dModel Hier1dProofs
  DistHierModel DistHierProofs DistExchangeProofs DistPoleProofs.
From Coq Require Import QArith Qcanon.
Open Scope Z_scope.
Ltac Zify.zify_post_hook ::= idtac.

(** ** C22 *)

(** Every message posted by [c] for [q] (partner, tag, indices in the order they are packed) is expected by [q] from [c] with
    the same tag and the same indices in the same order, and conversely. *)
Theorem C22_sends_match_receives : forall f dehier b L lmin n dec1 c q tag idxs,
  0 <= b <= 2 -> 0 <= lmin < L -> L <= 28 -> n = 2 ^ L + b - 1 -> validDec1 dec1 n ->
  0 <= c < Z.of_nat (length dec1) -> 0 <= q < Z.of_nat (length dec1) ->
  (In (q, tag, idxs) (messages (exchSends f dehier b L lmin dec1 n c)) <->
   In (c, tag, idxs) (messages (exchRecvs f dehier b L lmin dec1 n q))).
Proof.
  intros f dehier b L lmin n dec1 c q tag idxs Hb HL HL28 Hn HV Hc Hq.
  rewrite !messages_In. rewrite (exch_matches b L lmin n dec1 Hb HL HL28 Hn HV f dehier c q Hc Hq). reflexivity.
Qed.

(** At most one message per pair of processes, never to the process itself, never empty, without repeated indices and
    containing only values the sender owns. The partners are partitions. *)
Theorem C22_messages_well_formed : forall f dehier b L lmin n dec1 c,
  0 <= b <= 2 -> 0 <= lmin < L -> L <= 28 -> n = 2 ^ L + b - 1 -> validDec1 dec1 n ->
  0 <= c < Z.of_nat (length dec1) ->
  let sends := messages (exchSends f dehier b L lmin dec1 n c) in
  let recvs := messages (exchRecvs f dehier b L lmin dec1 n c) in
  NoDup (map (fun m => fst (fst m)) sends) /\ NoDup (map (fun m => fst (fst m)) recvs) /\
  (forall q tag idxs, In (q, tag, idxs) sends ->
    0 <= q < Z.of_nat (length dec1) /\ q <> c /\ idxs <> [] /\ NoDup idxs /\
    forall i, In i idxs -> lo1 dec1 c <= i < up1 dec1 n c) /\
  (forall q tag idxs, In (q, tag, idxs) recvs ->
    0 <= q < Z.of_nat (length dec1) /\ q <> c /\ idxs <> [] /\ NoDup idxs /\
    forall i, In i idxs -> lo1 dec1 q <= i < up1 dec1 n q).
Proof.
  intros f dehier b L lmin n dec1 c Hb HL HL28 Hn HV Hc sends recvs.
  assert (ND : forall m, NoDup (map (fun x => fst (fst x)) (messages m))).
  { intros m. unfold messages. rewrite map_map. simpl. rewrite map_id. apply StronglySorted_lt_NoDup. apply zset_sorted. }
  assert (RV : forall c q tag idxs, 0 <= c < Z.of_nat (length dec1) ->
    In (q, tag, idxs) (messages (exchRecvs f dehier b L lmin dec1 n c)) ->
    0 <= q < Z.of_nat (length dec1) /\ q <> c /\ idxs <> [] /\ NoDup idxs /\
    forall i, In i idxs -> lo1 dec1 q <= i < up1 dec1 n q).
  { clear c Hc sends recvs. intros c q tag idxs Hc H. apply messages_In in H. destruct H as (E & _ & NE).
    assert (R : forall i, In i idxs -> 0 <= i < n /\ neighbor1dPartition dec1 n i = q /\ q <> c).
    { intros i Hi. rewrite E in Hi. apply entryOf_In in Hi.
      exact (recv_owner b L lmin n dec1 Hb HL HL28 Hn HV f dehier c q i Hc Hi). }
    assert (exists i, In i idxs) as [i0 Hi0] by (destruct idxs as [|i l]; [congruence|exists i; now left]).
    assert (Hq : 0 <= q < Z.of_nat (length dec1)).
    { destruct (R i0 Hi0) as (H0 & O & _). rewrite <- O. now apply (neighbor1dPartition_spec dec1 n i0 HV). }
    split; auto. split; [now apply (R i0)|]. split; auto. split.
    - rewrite E. apply StronglySorted_lt_NoDup. apply zset_sorted.
    - intros i Hi. destruct (R i Hi) as (H0 & O & _). apply (owner_local 0 n dec1 HV q i Hq H0) in O.
      unfold firstIdx, lastIdx in O. unfold lo1, up1. lia. }
  split; [apply ND|]. split; [apply ND|]. split; [|intros q tag idxs H; exact (RV c q tag idxs Hc H)].
  intros q tag idxs H.
  assert (Hq : 0 <= q < Z.of_nat (length dec1)).
  { pose proof H as H'. apply messages_In in H'. destruct H' as (E & _ & NE).
    assert (exists i, In i idxs) as [i Hi] by (destruct idxs as [|i l]; [congruence|exists i; now left]).
    rewrite E in Hi. apply entryOf_In in Hi.
    assert (G : forall Rel, sendSpec b n dec1 Rel c q i -> 0 <= q < Z.of_nat (length dec1)).
    { intros Rel [_ (x & Hx & <- & _)]. now apply (neighbor1dPartition_spec dec1 n x HV). }
    unfold exchSends in Hi. destruct f, dehier; try (apply (all_send_In b L lmin n dec1 HL Hn HV c q i) in Hi; tauto);
      first [apply (dehier_send_spec b L lmin n dec1 Hb HL HL28 Hn HV c q i Hc) in Hi
            |apply (hier_send_spec b L lmin n dec1 Hb HL HL28 Hn HV c q i Hc) in Hi]; eapply G; exact Hi. }
  unfold sends in H. apply C22_sends_match_receives in H; auto. destruct (RV q c tag idxs Hq H) as (_ & N & R). auto.
Qed.

(** Periodic direction of level 3 cut at 0, 3, 4: process 2 needs values of both others, process 0 only needs the last
    ones, and lower minimum levels need more values for dehierarchization than for hierarchization. *)
Example C22_ex :
  validDec1 [0; 3; 4] 8 /\
  messages (exchSends Hat false 1 3 0 [0; 3; 4] 8 0) = [(1, 2, [2]); (2, 0, [0])] /\
  messages (exchRecvs Hat false 1 3 0 [0; 3; 4] 8 1) = [(0, 2, [2]); (2, 4, [4])] /\
  messages (exchRecvs Hat false 1 3 0 [0; 3; 4] 8 2) = [(0, 0, [0])] /\
  messages (exchRecvs Hat true 1 3 0 [0; 3; 4] 8 1) = [(0, 0, [0; 2]); (2, 4, [4])] /\
  messages (exchRecvs FullWeighting true 1 3 0 [0; 3; 4] 8 1) = [(0, 0, [0; 1; 2]); (2, 4, [4; 5; 6; 7])].
Proof.
  split; [|repeat split; vm_compute; reflexivity]. split; [reflexivity|]. split.
  - intros [|[|[|i]]] [|[|[|j]]] H; cbn [nth length] in *; lia.
  - intros [|[|[|i]]] H; cbn [nth length] in *; lia.
Qed.

(** ** C21, one pole *)

(** If every process holds its part of the pole [g], then after the exchange and the sweep each process holds its part of what
    one process computes from the whole pole; the contents of the work buffers ([stale], [stale']) do not matter. *)
Theorem C21_distributed_pole_equals_serial : forall f (dehier : bool) b L lmin n dec1 g locals q stale stale',
  0 <= b <= 2 -> 0 <= lmin -> L <= 28 -> n = 2 ^ L + b - 1 -> (b = 0 -> lmin = 0) -> validDec1 dec1 n ->
  (forall c, 0 <= c < Z.of_nat (length dec1) -> forall i, lo1 dec1 c <= i < up1 dec1 n c -> locals c i = g i) ->
  0 <= q < Z.of_nat (length dec1) ->
  match distPole f dehier b L lmin dec1 n q stale locals,
        (if dehier then dehierPole else hierPole) f b L lmin n 0 n stale' [] g with
  | Some u, Some v => forall i, lo1 dec1 q <= i < up1 dec1 n q -> u i = v i
  | None, None => True
  | _, _ => False
  end.
Proof.
  intros f dehier b L lmin n dec1 g locals q stale stale' Hb Hm HL Hn B0 HV HLoc Hq.
  assert (R : forall c i, lo1 dec1 c <= i < up1 dec1 n c <-> firstIdx dec1 c <= i <= lastIdx dec1 n c).
  { intros c i. unfold lo1, up1, firstIdx, lastIdx. lia. }
  destruct (Z_lt_le_dec lmin L) as [H|H].
  - pose proof (distPole_serial b L lmin n dec1 Hb (conj Hm H) HL Hn HV g locals) as D.
    specialize (D (fun c Hc i Hi => HLoc c Hc i (proj2 (R c i) Hi)) f dehier q stale stale' Hq B0).
    destruct (distPole f dehier b L lmin dec1 n q stale locals), ((if dehier then dehierPole else hierPole) f b L lmin n 0 n stale' [] g);
      auto. intros i Hi. apply D. now apply R.
  - unfold distPole, dehierPole, hierPole. assert (lmin >=? L = true) as E by (rewrite Z.geb_leb; now apply Z.leb_le).
    destruct dehier; rewrite E; now apply HLoc.
Qed.

(** Three processes, periodic direction, hat basis; process 1 owns only index 3 and its buffer is full of 99s. *)
Example C21_ex :
  let g := fun j => Q2Qc (inject_Z (match j with 0 => 5 | 2 => 7 | 3 => 1 | 4 => 3 | 6 => 8 | _ => 0 end)) in
  let junk := fun _ : Z => Q2Qc (inject_Z 99) in
  let locals := fun c i => if (lo1 [0; 3; 4] c <=? i) && (i <? up1 [0; 3; 4] 8 c) then g i else junk i in
  match distPole Hat false 1 3 0 [0; 3; 4] 8 1 junk locals, hierPole Hat 1 3 0 8 0 8 g [] g with
  | Some u, Some v => u 3 = v 3 /\ u 3 = Q2Qc (inject_Z (-4)) /\ u 5 <> v 5
  | _, _ => False
  end.
Proof. cbv zeta. split; [|split]; [apply Qc_is_canon; vm_compute; reflexivity..|vm_compute; discriminate]. Qed.

Print Assumptions C22_sends_match_receives.
Print Assumptions C22_messages_well_formed.
Print Assumptions C21_distributed_pole_equals_serial.
