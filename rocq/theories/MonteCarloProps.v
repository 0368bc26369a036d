(** C111: two systems interpolate at common points. *)
From Verif Require Import Base QcTools ThirdLevelModel MonteCarloModel.
From Coq Require Import QArith Qcanon Relations.
Open Scope Z_scope.
Ltac Zify.zify_post_hook ::= idtac.

(** ** Points as a single array *)
Lemma deserialize_serialize : forall d cs, (0 < d)%nat -> Forall (fun c => length c = d) cs -> deserializeCoords d (serializeCoords cs) = cs.
Proof.
  intros d cs Hd HL. unfold deserializeCoords, serializeCoords.
  assert (E : (length (concat cs) = length cs * d)%nat).
  { clear Hd. induction HL as [|c cs HC HL IH]; cbn [concat length]; auto. rewrite app_length, IH, HC. lia. }
  rewrite E, Nat.div_mul by lia. clear E. induction HL as [|c cs HC HL IH]; cbn [concat length deserializeLoop]; auto.
  rewrite firstn_app, firstn_all2, skipn_app, skipn_all2, HC, Nat.sub_diag, firstn_O, app_nil_r, skipn_O by lia. cbn [app]. now rewrite IH.
Qed.
(** What is made a single array can be split into the same points again. *)
Theorem C111_round_trip : forall d cs, (0 < d)%nat -> Forall (fun c => length c = d) cs -> deserializeCoords d (serializeCoords cs) = cs.
Proof. exact deserialize_serialize. Qed.

(** All processes get the points that the first one has read. *)
Theorem C111_broadcast_partial : forall P d cs, (0 < d < 256)%nat -> cs <> [] -> Forall (fun c => length c = d) cs ->
  Z.of_nat (length cs) * Z.of_nat d < 2 ^ 31 -> broadcastCoords P cs = Some (repeat cs P).
Proof.
  intros P d cs Hd NE HL HB. unfold broadcastCoords.
  assert (E : length (nth 0 cs []) = d) by (destruct cs as [|c cs]; [congruence|]; now inv HL).
  rewrite E. change (2 ^ 8) with 256. rewrite Z.mod_small by lia. rewrite (proj2 (Z.ltb_lt _ _) HB).
  destruct (Z.eqb_spec (Z.of_nat d) 0); [lia|]. cbn [negb andb]. rewrite Nat2Z.id, deserialize_serialize by (auto; lia). reflexivity.
Qed.
(** Not so with more dimensions than DimType can count. *)
Theorem C111_broadcast_refuted :
  ~ (forall P d cs, (0 < d)%nat -> cs <> [] -> Forall (fun c => length c = d) cs ->
       Z.of_nat (length cs) * Z.of_nat d < 2 ^ 31 -> broadcastCoords P cs = Some (repeat cs P)).
Proof.
  intros H. assert (X := H 1%nat 257%nat [repeat 0%Qc 257] ltac:(lia) ltac:(discriminate) ltac:(constructor; [apply repeat_length|constructor]) ltac:(vm_compute; reflexivity)).
  assert (Y : match broadcastCoords 1 [repeat 0%Qc 257] with Some [c] => length c | _ => 0%nat end = 257%nat) by (vm_compute; reflexivity).
  rewrite X in Y. vm_compute in Y. discriminate.
Qed.

(** ** All executions *)
Section Net.
Variable next1 next2 : mcState -> act mcState.
Notation step := (mstep next1 next2).
Notation anyStep := (mAnyStep next1 next2).

(** Every execution ends, and only in states with [P]. *)
Inductive mgood (P : mcNet -> Prop) : mcNet -> Prop :=
| mgood_end : forall s, (forall t, ~ anyStep s t) -> P s -> mgood P s
| mgood_step : forall s, (exists t, anyStep s t) -> (forall t, anyStep s t -> mgood P t) -> mgood P s.

Ltac clean := repeat match goal with
  | H : MNet _ _ _ _ _ _ _ = MNet _ _ _ _ _ _ _ |- _ => injection H; clear H; intros; subst
  | H : _ :: _ = _ :: _ |- _ => injection H; clear H; intros; subst
  | H1 : nextB ?b = _, H2 : nextB ?b = _ |- _ => rewrite H1 in H2; clear H1; try discriminate H2; injection H2; clear H2; intros; subst
  | H1 : next1 ?b = _, H2 : next1 ?b = _ |- _ => rewrite H1 in H2; clear H1; try discriminate H2; injection H2; clear H2; intros; subst
  | H1 : next2 ?b = _, H2 : next2 ?b = _ |- _ => rewrite H1 in H2; clear H1; try discriminate H2; injection H2; clear H2; intros; subst
  end.
Lemma mcommute : forall c s t u, step false s t -> step c s u -> u = t \/ exists v, step false u v /\ step c t v.
Proof.
  intros c s t u H1 H2. inversion H1; subst; inversion H2; subst; clear H1 H2; clean;
    first [left; reflexivity
          | right; eexists; split; rewrite <- ?app_comm_cons; econstructor; eassumption].
Qed.
Lemma mback : forall P s t, step false s t -> mgood P t -> mgood P s.
Proof.
  intros P s t HS HG. revert s HS. induction HG as [t NT HP|t EX ALL IH]; intros s HS.
  - apply mgood_step; [exists t; now exists false|]. intros u [c HU]. destruct (mcommute c s t u HS HU) as [->|(v & _ & HV)]; [now apply mgood_end|].
    exfalso. apply (NT v). now exists c.
  - apply mgood_step; [exists t; now exists false|]. intros u [c HU]. destruct (mcommute c s t u HS HU) as [->|(v & HV1 & HV)]; [now apply mgood_step|].
    apply (IH v); [now exists c|auto].
Qed.
Lemma mgood_acc : forall P s, mgood P s -> Acc (fun x y => anyStep y x) s.
Proof. intros P s H. induction H as [s NT _|s _ _ IH]; constructor; intros t HT; [now apply NT in HT|auto]. Qed.
Lemma mgood_reach : forall P s t, mgood P s -> clos_refl_trans mcNet anyStep s t -> mgood P t.
Proof.
  intros P s t HG HR. apply clos_rt_rt1n in HR. revert HG. induction HR as [|s u t H1 _ IH]; auto. intros HG. apply IH. inversion HG as [x NT _|x _ ALL]; subst; auto. now apply NT in H1.
Qed.
Lemma mgood_here : forall P s, mgood P s -> (exists t, anyStep s t) \/ P s.
Proof. intros P s H. inversion H; subst; auto. Qed.
Lemma mboth : forall P b s1 s2 k m1 m2, nextB b = ASelect k -> (forall p m s', next1 s1 <> ASend p m s') -> (forall p m s', next2 s2 <> ASend p m s') ->
  mgood P (MNet (k false m1) s1 s2 [] [] [] [m2]) -> mgood P (MNet (k true m2) s1 s2 [] [] [m1] []) -> mgood P (MNet b s1 s2 [] [] [m1] [m2]).
Proof.
  intros P b s1 s2 k m1 m2 HB H1 H2 G1 G2. apply mgood_step.
  - eexists. exists true. eapply ms_bsel1. eassumption.
  - intros t [c HT]. inversion HT; subst; clean; auto; exfalso; first [eapply H1; eassumption | eapply H2; eassumption].
Qed.
End Net.

Section Exchange.
Variable debug : bool.
Variable d : nat.
Variable interp1 interp2 : list (list Qc) -> list Qc.
Hypothesis len1 : forall cs, length (interp1 cs) = length cs.
Hypothesis len2 : forall cs, length (interp2 cs) = length cs.
Notation next1 := (nextQ debug d interp1).
Notation next2 := (nextQ debug d interp2).
Notation good := (mgood next1 next2).

(** Both systems have the values of the sum at points [cs]. *)
Definition mcFinished (cs : list (list Qc)) (s : mcNet) : Prop :=
  s = MNet (BLoop false false) (QDone cs (map2 Qcplus (interp1 cs) (interp2 cs))) (QDone cs (map2 Qcplus (interp1 cs) (interp2 cs))) [] [] [] [].

Lemma rawSize_pos : forall (A : Type) esz (l : list A), 0 < esz -> (rawSize esz l =? 0) = false.
Proof. intros A esz l H. unfold rawSize. apply Z.eqb_neq. nia. Qed.
Lemma sameValues_refl : forall l, sameValues l l = true.
Proof. induction l as [|x l IH]; cbn [sameValues]; auto. rewrite IH, andb_true_r. unfold Qc_eq_bool. destruct (Qc_eq_dec x x); congruence. Qed.
Lemma map2_comm : forall a b, length a = length b -> map2 Qcplus a b = map2 Qcplus b a.
Proof. induction a as [|x a IH]; intros [|y b] H; cbn in *; try discriminate; auto. rewrite (IH b) by lia. f_equal. ring. Qed.

Ltac one := eapply mback; [first
  [ eapply ms_bsend1; reflexivity | eapply ms_bsend2; reflexivity | eapply ms_brecv1; reflexivity | eapply ms_brecv2; reflexivity
  | eapply ms_send1; reflexivity | eapply ms_recv1; reflexivity | eapply ms_send2; reflexivity | eapply ms_recv2; reflexivity ] |
  cbn [app negb]; cbv beta iota; rewrite ?rawSize_pos, ?sameValues_refl by lia; cbv beta iota].

Lemma mc_end : forall cs u w, u = map2 Qcplus (interp1 cs) (interp2 cs) -> w = u -> good (mcFinished cs) (MNet (BLoop true true) (QDone cs u) (QDone cs w) [] [] [MFinished] [MFinished]).
Proof.
  intros cs u w -> ->.
  assert (E : good (mcFinished cs) (MNet (BLoop false false) (QDone cs (map2 Qcplus (interp1 cs) (interp2 cs))) (QDone cs (map2 Qcplus (interp1 cs) (interp2 cs))) [] [] [] [])).
  { apply mgood_end; [|reflexivity]. intros t [c H]. inversion H; subst; try discriminate. }
  eapply mboth; [reflexivity|discriminate|discriminate| |]; cbv beta iota; cbn [processMessage andb]; repeat one; exact E.
Qed.

Lemma mc_values : forall cs, good (mcFinished cs) (MNet (BLoop true true) (QFetchV cs (interp1 cs)) (QFetchV cs (interp2 cs)) [] [] [MReadyToExchange] [MReadyToExchange]).
Proof.
  intros cs. assert (L : length (interp1 cs) = length (interp2 cs)) by now rewrite len1, len2.
  eapply mboth; [reflexivity|discriminate|discriminate| |]; cbv beta iota; cbn [processMessage andb].
  - repeat one. rewrite (proj2 (Nat.eqb_eq _ _) L). repeat one. rewrite (proj2 (Nat.eqb_eq _ _) (eq_sym L)). repeat one.
    apply mc_end; [reflexivity|]. apply map2_comm. lia.
  - repeat one. rewrite (proj2 (Nat.eqb_eq _ _) (eq_sym L)). repeat one. rewrite (proj2 (Nat.eqb_eq _ _) L). repeat one.
    apply mc_end; [reflexivity|]. apply map2_comm. lia.
Qed.

Lemma mgood_weaken : forall (P Q : mcNet -> Prop) s, (forall t, P t -> Q t) -> good P s -> good Q s.
Proof. intros P Q s H G. induction G as [s NT HP|s EX ALL IH]; [apply mgood_end; auto|apply mgood_step; auto]. Qed.

Lemma mc_all : forall cs1 cs2, (0 < d)%nat -> Forall (fun c => length c = d) cs1 -> Forall (fun c => length c = d) cs2 -> length cs1 = length cs2 ->
  good (fun s => mcFinished cs1 s \/ mcFinished cs2 s) (startMC cs1 cs2).
Proof.
  intros cs1 cs2 Hd H1 H2 HL. unfold startMC.
  assert (E : forall cs, Forall (fun c => length c = d) cs -> (length (serializeCoords cs) = length cs * d)%nat).
  { clear. intros cs HL. unfold serializeCoords. induction HL as [|c cs HC HL IH]; cbn [concat length]; auto. rewrite app_length, IH, HC. lia. }
  assert (L : length (serializeCoords cs1) = length (serializeCoords cs2)) by now rewrite !E, HL.
  assert (V := mc_values). assert (D1 := deserialize_serialize d cs1 Hd H1). assert (D2 := deserialize_serialize d cs2 Hd H2).
  one. one. eapply mboth; [reflexivity|discriminate|discriminate| |]; cbv beta iota; cbn [processMessage andb].
  - eapply mgood_weaken with (P := mcFinished cs1); [auto|]. destruct debug eqn:ED.
    + repeat one. rewrite (proj2 (Nat.eqb_eq _ _) L). repeat one. rewrite D1. apply V.
    + repeat one. rewrite (proj2 (Nat.eqb_eq _ _) L). repeat one. rewrite D1. apply V.
  - eapply mgood_weaken with (P := mcFinished cs2); [auto|]. destruct debug eqn:ED.
    + repeat one. rewrite (proj2 (Nat.eqb_eq _ _) (eq_sym L)). repeat one. rewrite D2. apply V.
    + repeat one. rewrite (proj2 (Nat.eqb_eq _ _) (eq_sym L)). repeat one. rewrite D2. apply V.
Qed.

(** Two systems compiled alike, with equally many points: whatever the interleaving and whichever system the broker serves
    first, from every state that can be reached the execution can go on, or all programs are done, all messages were received,
    and both systems have the points of one of them and, at each, the sum of what both interpolate there. *)
Theorem C111_no_deadlock : forall cs1 cs2 s, (0 < d)%nat -> Forall (fun c => length c = d) cs1 -> Forall (fun c => length c = d) cs2 -> length cs1 = length cs2 ->
  clos_refl_trans mcNet (mAnyStep next1 next2) (startMC cs1 cs2) s ->
  (exists t, mAnyStep next1 next2 s t) \/ mcFinished cs1 s \/ mcFinished cs2 s.
Proof. intros cs1 cs2 s Hd H1 H2 HL HR. apply (mgood_here next1 next2 (fun s => mcFinished cs1 s \/ mcFinished cs2 s)). eapply mgood_reach; [now apply mc_all|exact HR]. Qed.
(** And there is no infinite execution. *)
Theorem C111_terminates : forall cs1 cs2, (0 < d)%nat -> Forall (fun c => length c = d) cs1 -> Forall (fun c => length c = d) cs2 -> length cs1 = length cs2 ->
  Acc (fun t s => mAnyStep next1 next2 s t) (startMC cs1 cs2).
Proof. intros cs1 cs2 Hd H1 H2 HL. eapply mgood_acc. now apply mc_all. Qed.
(** The values: at every point the sum of both interpolants. *)
Theorem C111_sum : forall cs s i, mcFinished cs s -> (i < length cs)%nat ->
  exists vs, mSys1 s = QDone cs vs /\ mSys2 s = QDone cs vs /\ nth i vs 0%Qc = (nth i (interp1 cs) 0 + nth i (interp2 cs) 0)%Qc.
Proof.
  intros cs s i -> Hi. eexists. split; [reflexivity|]. split; [reflexivity|]. apply map2_nth; [rewrite len1|rewrite len2]; auto.
Qed.
End Exchange.

(** If one system was compiled with assertions and the other one without, the exchange gets stuck. *)
Definition exInterp (f : Qc) (cs : list (list Qc)) : list Qc := map (fun c => (f * fold_right Qcplus 0 c)%Qc) cs.
Definition exPoints (q : Qc) : list (list Qc) := [[q; 0%Qc]; [1%Qc; q]].
Theorem C111_mixed_builds_refuted :
  ~ (forall debug1 debug2 d interp1 interp2 cs1 cs2 s, (forall cs, length (interp1 cs) = length cs) -> (forall cs, length (interp2 cs) = length cs) ->
       (0 < d)%nat -> Forall (fun c => length c = d) cs1 -> Forall (fun c => length c = d) cs2 -> length cs1 = length cs2 ->
       clos_refl_trans mcNet (mAnyStep (nextQ debug1 d interp1) (nextQ debug2 d interp2)) (startMC cs1 cs2) s ->
       (exists t, mAnyStep (nextQ debug1 d interp1) (nextQ debug2 d interp2) s t) \/ mcFinished interp1 interp2 cs1 s \/ mcFinished interp1 interp2 cs2 s).
Proof.
  intros H.
  assert (L : forall f cs, length (exInterp f cs) = length cs) by (intros; apply map_length).
  specialize (H true false 2%nat (exInterp 1) (exInterp 1) (exPoints 0) (exPoints 1)).
  assert (R : exists s, clos_refl_trans mcNet (mAnyStep (nextQ true 2 (exInterp 1)) (nextQ false 2 (exInterp 1))) (startMC (exPoints 0) (exPoints 1)) s /\
    (forall t, ~ mAnyStep (nextQ true 2 (exInterp 1)) (nextQ false 2 (exInterp 1)) s t) /\ mSys1 s = QSendC 3 (exPoints 0)).
  { eexists. split; [|split].
    - unfold startMC.
      Ltac go c := eapply rt_trans; [apply rt_step; exists false; eapply c; reflexivity|cbn [app negb]; cbv beta iota].
      eapply rt_trans; [apply rt_step; exists false; eapply ms_send1; reflexivity|cbn [app]].
      eapply rt_trans; [apply rt_step; exists true; eapply ms_bsel1; reflexivity|cbn [processMessage andb]].
      eapply rt_trans; [apply rt_step; exists false; eapply ms_send2; reflexivity|cbn [app]].
      go ms_bsend1. go ms_brecv2. go ms_bsend2. go ms_recv1. go ms_send1. go ms_send1. go ms_send1.
      go ms_brecv1. go ms_brecv1. go ms_bsend2. go ms_brecv1. go ms_bsend2. go ms_recv2. go ms_recv2. go ms_recv2. go ms_send2. go ms_brecv2.
      go ms_send2. apply rt_refl.
    - intros t [c HT]. inversion HT; subst; discriminate.
    - reflexivity. }
  destruct R as (s & R1 & R2 & R3).
  assert (F : forall a b : Qc, Forall (fun c => length c = 2%nat) (exPoints a)) by (intros; repeat constructor).
  destruct (H s (L 1%Qc) (L 1%Qc) ltac:(lia) (F 0%Qc 0%Qc) (F 1%Qc 1%Qc) eq_refl R1) as [[t Ht]|[E|E]].
  - exact (R2 t Ht).
  - rewrite E in R3. discriminate.
  - rewrite E in R3. discriminate.
Qed.

(** Two different sets of two points in two dimensions. *)
Example C111_ex_hyps : Forall (fun c => length c = 2%nat) (exPoints 0) /\ Forall (fun c => length c = 2%nat) (exPoints 1) /\ length (exPoints 0) = length (exPoints 1) /\
  (forall f cs, length (exInterp f cs) = length cs) /\ exPoints 0 <> exPoints 1.
Proof.
  split; [repeat constructor|]. split; [repeat constructor|]. split; [reflexivity|]. split; [intros; apply map_length|]. intros H. injection H. discriminate.
Qed.
Example C111_ex : deserializeCoords 2 (serializeCoords (exPoints 1)) = exPoints 1 /\ broadcastCoords 3 (exPoints 1) = Some (repeat (exPoints 1) 3) /\
  map2 Qcplus (exInterp 1 (exPoints 1)) (exInterp (Q2Qc 2) (exPoints 1)) = exInterp (Q2Qc 3) (exPoints 1).
Proof. split; [reflexivity|]. split; [reflexivity|]. unfold exInterp, exPoints. cbn [map map2 fold_right]. repeat (f_equal; [apply Qc_is_canon; vm_compute; reflexivity|]). reflexivity. Qed.

Print Assumptions C111_round_trip.
Print Assumptions C111_broadcast_partial.
Print Assumptions C111_broadcast_refuted.
Print Assumptions C111_no_deadlock.
Print Assumptions C111_terminates.
Print Assumptions C111_sum.
Print Assumptions C111_mixed_builds_refuted.
Print Assumptions C111_ex_hyps.
Print Assumptions C111_ex.
