(** C42: the exchange between two systems through the broker. *)
From Verif Require Import Base QcTools ThirdLevelModel.
From Coq Require Import QArith Qcanon Relations.
Open Scope Z_scope.
Ltac Zify.zify_post_hook ::= idtac.

Section Net.
Variable next1 next2 : sstate -> act sstate.
Notation step := (step next1 next2).
Notation anyStep := (anyStep next1 next2).

(** Every execution ends, and only in states with [P]. *)
Inductive good (P : net -> Prop) : net -> Prop :=
| good_end : forall s, (forall t, ~ anyStep s t) -> P s -> good P s
| good_step : forall s, (exists t, anyStep s t) -> (forall t, anyStep s t -> good P t) -> good P s.

Ltac clean := repeat match goal with
  | H : Net _ _ _ _ _ _ _ = Net _ _ _ _ _ _ _ |- _ => injection H; clear H; intros; subst
  | H : _ :: _ = _ :: _ |- _ => injection H; clear H; intros; subst
  | H1 : nextB ?b = _, H2 : nextB ?b = _ |- _ => rewrite H1 in H2; clear H1; try discriminate H2; injection H2; clear H2; intros; subst
  | H1 : next1 ?b = _, H2 : next1 ?b = _ |- _ => rewrite H1 in H2; clear H1; try discriminate H2; injection H2; clear H2; intros; subst
  | H1 : next2 ?b = _, H2 : next2 ?b = _ |- _ => rewrite H1 in H2; clear H1; try discriminate H2; injection H2; clear H2; intros; subst
  end.
(** A step that is no choice commutes with the steps of the other programs. *)
Lemma commute : forall c s t u, step false s t -> step c s u -> u = t \/ exists v, step false u v /\ step c t v.
Proof.
  intros c s t u H1 H2. inversion H1; subst; inversion H2; subst; clear H1 H2; clean;
    first [left; reflexivity
          | right; eexists; split; rewrite <- ?app_comm_cons; econstructor; eassumption].
Qed.
Lemma back : forall P s t, step false s t -> good P t -> good P s.
Proof.
  intros P s t HS HG. revert s HS. induction HG as [t NT HP|t EX ALL IH]; intros s HS.
  - apply good_step; [exists t; now exists false|]. intros u [c HU]. destruct (commute c s t u HS HU) as [->|(v & _ & HV)]; [now apply good_end|].
    exfalso. apply (NT v). now exists c.
  - apply good_step; [exists t; now exists false|]. intros u [c HU]. destruct (commute c s t u HS HU) as [->|(v & HV1 & HV)]; [now apply good_step|].
    apply (IH v); [now exists c|auto].
Qed.
Lemma good_acc : forall P s, good P s -> Acc (fun x y => anyStep y x) s.
Proof. intros P s H. induction H as [s NT _|s _ _ IH]; constructor; intros t HT; [now apply NT in HT|auto]. Qed.
Lemma good_reach : forall P s t, good P s -> clos_refl_trans net anyStep s t -> good P t.
Proof.
  intros P s t HG HR. apply clos_rt_rt1n in HR. revert HG. induction HR as [|s u t H1 _ IH]; auto. intros HG. apply IH. inversion HG as [x NT _|x _ ALL]; subst; auto. now apply NT in H1.
Qed.
Lemma good_here : forall P s, good P s -> (exists t, anyStep s t) \/ P s.
Proof. intros P s H. inversion H; subst; auto. Qed.
(** At the loop of the broker with one message from each system only the broker can go on, in two ways. *)
Lemma both_choices : forall P b s1 s2 k m1 m2, nextB b = ASelect k -> (forall p m s', next1 s1 <> ASend p m s') -> (forall p m s', next2 s2 <> ASend p m s') ->
  good P (Net (k false m1) s1 s2 [] [] [] [m2]) -> good P (Net (k true m2) s1 s2 [] [] [m1] []) -> good P (Net b s1 s2 [] [] [m1] [m2]).
Proof.
  intros P b s1 s2 k m1 m2 HB H1 H2 G1 G2. apply good_step.
  - eexists. exists true. eapply st_bsel1. eassumption.
  - intros t [c HT]. inversion HT; subst; clean; auto; exfalso; first [eapply H1; eassumption | eapply H2; eassumption].
Qed.
End Net.

Section Exchange.
Variable compute1 compute2 : list round -> sysData -> sysData.
Variable absorb1 absorb2 : list Qc -> sysData -> sysData.
Notation next1 := (nextS compute1 absorb1).
Notation next2 := (nextS compute2 absorb2).
Notation good := (good next1 next2).

(** What both systems should hold after a round: the sum of both contributions, the minimum or maximum of the sizes, the other's values. *)
Definition sumBlocks (a b : list (list Qc)) : list (list Qc) := map2 (map2 Qcplus) a b.
Definition afterRound (r : round) (d1 d2 : sysData) : sysData * sysData :=
  match r with
  | RCombine => (withBlocks (sumBlocks (blocks d1) (blocks d2)) d1, withBlocks (sumBlocks (blocks d1) (blocks d2)) d2)
  | RUnify e => (unifySizes e (sizes d2) d1, unifySizes e (sizes d1) d2)
  | RExchange => (absorb1 (exchValues d2) d1, absorb2 (exchValues d1) d2)
  | RFile => (d1, d2)
  end.
Fixpoint afterRounds (rs : list round) (d1 d2 : sysData) : sysData * sysData :=
  match rs with
  | [] => (d1, d2)
  | r :: rs' => let (e1, e2) := afterRound r d1 d2 in afterRounds rs' (compute1 rs' e1) (compute2 rs' e2)
  end.
(** Both systems have equally many blocks of equal, positive sizes, and equally many subspaces. *)
Definition matching (r : round) (d1 d2 : sysData) : Prop :=
  match r with
  | RCombine => map (@length Qc) (blocks d1) = map (@length Qc) (blocks d2) /\ Forall (fun b => b <> []) (blocks d1)
  | RUnify _ => length (sizes d1) = length (sizes d2)
  | RExchange => length (exchValues d1) = length (exchValues d2)
  | RFile => True
  end.
Fixpoint allMatching (rs : list round) (d1 d2 : sysData) : Prop :=
  match rs with
  | [] => True
  | r :: rs' => matching r d1 d2 /\ let (e1, e2) := afterRound r d1 d2 in allMatching rs' (compute1 rs' e1) (compute2 rs' e2)
  end.
Definition finished (e : sysData * sysData) (s : net) : Prop := s = Net (BLoop false false) (SDone (fst e)) (SDone (snd e)) [] [] [] [].

Lemma rawSize_pos : forall (A : Type) esz (l : list A), 0 < esz -> (rawSize esz l =? 0) = false.
Proof. intros A esz l H. unfold rawSize. apply Z.eqb_neq. nia. Qed.

Ltac one := eapply back; [first
  [ eapply st_bsend1; reflexivity | eapply st_bsend2; reflexivity | eapply st_brecv1; reflexivity | eapply st_brecv2; reflexivity
  | eapply st_send1; reflexivity | eapply st_recv1; reflexivity | eapply st_send2; reflexivity | eapply st_recv2; reflexivity ] |
  cbn [app negb]; cbv beta iota; rewrite ?rawSize_pos by lia; cbv beta iota].

Lemma map2_comm : forall a b, length a = length b -> map2 Qcplus a b = map2 Qcplus b a.
Proof. induction a as [|x a IH]; intros [|y b] H; cbn in *; try discriminate; auto. rewrite (IH b) by lia. f_equal. ring. Qed.

Lemma comb_blocks1 : forall P rs d1 d2 a b done, map (@length Qc) a = map (@length Qc) b -> Forall (fun x => x <> []) a ->
  good P (Net (BLoop true true) (SStart rs (compute1 rs (withBlocks (done ++ sumBlocks a b) d1))) (SStart rs (compute2 rs (withBlocks (done ++ sumBlocks a b) d2))) [] [] [] []) ->
  good P (Net (BComb 3 false) (SCombNext true done a rs d1) (SCombNext false done b rs d2) [] [] [] []).
Proof.
  intros P rs d1 d2. induction a as [|x a IH]; intros [|y b] done HL HN HG; try discriminate HL.
  - cbn [sumBlocks map2] in HG. rewrite app_nil_r in HG. do 4 one. exact HG.
  - injection HL as L1 L2. inversion HN as [|z l N1 N2]; subst. destruct x as [|x0 x]; [congruence|]. destruct y as [|y0 y]; [discriminate L1|].
    set (u := x0 :: x) in *. set (w := y0 :: y) in *.
    repeat one. rewrite (proj2 (Nat.eqb_eq _ _) L1). repeat one.
    assert (E1 : length (map2 Qcplus w u) = length u) by (rewrite map2_length; lia).
    rewrite (proj2 (Nat.eqb_eq _ _) E1). repeat one.
    apply IH; auto. rewrite (map2_comm w u) by lia. rewrite <- !app_assoc. exact HG.
Qed.
Lemma comb_blocks2 : forall P rs d1 d2 a b done, map (@length Qc) a = map (@length Qc) b -> Forall (fun x => x <> []) a ->
  good P (Net (BLoop true true) (SStart rs (compute1 rs (withBlocks (done ++ sumBlocks a b) d1))) (SStart rs (compute2 rs (withBlocks (done ++ sumBlocks a b) d2))) [] [] [] []) ->
  good P (Net (BComb 3 true) (SCombNext false done a rs d1) (SCombNext true done b rs d2) [] [] [] []).
Proof.
  intros P rs d1 d2. induction a as [|x a IH]; intros [|y b] done HL HN HG; try discriminate HL.
  - cbn [sumBlocks map2] in HG. rewrite app_nil_r in HG. do 4 one. exact HG.
  - injection HL as L1 L2. inversion HN as [|z l N1 N2]; subst. destruct x as [|x0 x]; [congruence|]. destruct y as [|y0 y]; [discriminate L1|].
    set (u := x0 :: x) in *. set (w := y0 :: y) in *.
    repeat one. rewrite (proj2 (Nat.eqb_eq _ _) (eq_sym L1)). repeat one.
    assert (E1 : length (map2 Qcplus u w) = length w) by (rewrite map2_length; lia).
    rewrite (proj2 (Nat.eqb_eq _ _) E1). repeat one.
    apply IH; auto. rewrite <- !app_assoc. exact HG.
Qed.

Lemma one_round : forall P r rs d1 d2, matching r d1 d2 ->
  good P (Net (BLoop true true) (SStart rs (compute1 rs (fst (afterRound r d1 d2)))) (SStart rs (compute2 rs (snd (afterRound r d1 d2)))) [] [] [] []) ->
  good P (Net (BLoop true true) (SStart (r :: rs) d1) (SStart (r :: rs) d2) [] [] [] []).
Proof.
  intros P r rs d1 d2 HM HG. destruct r as [|e| |]; cbn [matching afterRound fst snd] in HM, HG.
  - one. one. eapply both_choices; [reflexivity|discriminate|discriminate| |]; cbv beta iota; cbn [processMessage andb].
    + do 5 one. apply comb_blocks1; [tauto|tauto|exact HG].
    + do 5 one. apply comb_blocks2; [tauto|tauto|exact HG].
  - one. one. eapply both_choices; [reflexivity|discriminate|discriminate| |]; cbv beta iota; cbn [processMessage andb].
    + repeat one. rewrite (proj2 (Nat.eqb_eq _ _) HM). repeat one. rewrite (proj2 (Nat.eqb_eq _ _) (eq_sym HM)). repeat one. exact HG.
    + repeat one. rewrite (proj2 (Nat.eqb_eq _ _) (eq_sym HM)). repeat one. rewrite (proj2 (Nat.eqb_eq _ _) HM). repeat one. exact HG.
  - one. one. eapply both_choices; [reflexivity|discriminate|discriminate| |]; cbv beta iota; cbn [processMessage andb].
    + repeat one. rewrite (proj2 (Nat.eqb_eq _ _) HM). repeat one. rewrite (proj2 (Nat.eqb_eq _ _) (eq_sym HM)). repeat one. exact HG.
    + repeat one. rewrite (proj2 (Nat.eqb_eq _ _) (eq_sym HM)). repeat one. rewrite (proj2 (Nat.eqb_eq _ _) HM). repeat one. exact HG.
  - one. one. eapply both_choices; [reflexivity|discriminate|discriminate| |]; cbv beta iota; cbn [processMessage andb]; repeat one; exact HG.
Qed.

Lemma the_end : forall d1 d2, good (finished (d1, d2)) (Net (BLoop true true) (SStart [] d1) (SStart [] d2) [] [] [] []).
Proof.
  intros d1 d2. one. one. assert (E : good (finished (d1, d2)) (Net (BLoop false false) (SDone d1) (SDone d2) [] [] [] [])).
  { apply good_end; [|reflexivity]. intros t [c H]. inversion H; subst; try discriminate. }
  eapply both_choices; [reflexivity|discriminate|discriminate| |]; cbv beta iota; cbn [processMessage andb]; repeat one; exact E.
Qed.

Lemma all_rounds : forall rs d1 d2, allMatching rs d1 d2 -> good (finished (afterRounds rs d1 d2)) (startNet rs d1 d2).
Proof.
  induction rs as [|r rs IH]; intros d1 d2 HM; [apply the_end|]. cbn [allMatching afterRounds] in *. destruct HM as [HM HR]. apply one_round; auto.
  destruct (afterRound r d1 d2) as [e1 e2]. now apply IH.
Qed.

(** Whatever the interleaving and whichever system the broker serves first, from every state that can be reached the execution can go on, or
    all three programs are done, all messages were received and the systems hold the result of all rounds. *)
Theorem C42_no_deadlock : forall rs d1 d2 s, allMatching rs d1 d2 -> clos_refl_trans net (anyStep next1 next2) (startNet rs d1 d2) s ->
  (exists t, anyStep next1 next2 s t) \/ finished (afterRounds rs d1 d2) s.
Proof. intros rs d1 d2 s HM HR. apply good_here. eapply good_reach; [now apply all_rounds|exact HR]. Qed.

(** There is no infinite execution. *)
Theorem C42_terminates : forall rs d1 d2, allMatching rs d1 d2 -> Acc (fun t s => anyStep next1 next2 s t) (startNet rs d1 d2).
Proof. intros rs d1 d2 HM. eapply good_acc. now apply all_rounds. Qed.

(** After a combination both systems hold the sum of the two contributions, block by block and value by value. *)
Theorem C42_sum : forall d1 d2 p j, matching RCombine d1 d2 -> (p < length (blocks d1))%nat -> (j < length (nth p (blocks d1) []))%nat ->
  let (e1, e2) := afterRound RCombine d1 d2 in
  blocks e1 = blocks e2 /\ nth j (nth p (blocks e1) []) 0%Qc = (nth j (nth p (blocks d1) []) 0 + nth j (nth p (blocks d2) []) 0)%Qc.
Proof.
  intros d1 d2 p j [HL _] Hp Hj. cbn. split; auto.
  assert (L : length (blocks d1) = length (blocks d2)) by (rewrite <- (map_length (@length Qc) (blocks d1)), HL; apply map_length).
  assert (LN : length (nth p (blocks d1) []) = length (nth p (blocks d2) [])) by (rewrite <- (map_nth (@length Qc) (blocks d1) []), HL, (map_nth (@length Qc) (blocks d2) []); reflexivity).
  unfold sumBlocks. rewrite (map2_nth _ _ _ _ _ _ p [] [] []) by lia. apply map2_nth; lia.
Qed.
End Exchange.

(** A process without values on either side (possible for the shared subspaces of the extra sparse grid): the managers throw, the exchange is
    not completed in any execution. *)
Theorem C42_empty_block_refuted : forall compute1 compute2 absorb1 absorb2, exists rs d1 d2, length (blocks d1) = length (blocks d2) /\
  forall s, clos_refl_trans net (anyStep (nextS compute1 absorb1) (nextS compute2 absorb2)) (startNet rs d1 d2) s -> forall e, ~ finished e s.
Proof.
  intros compute1 compute2 absorb1 absorb2. set (d := {| blocks := [[]]; sizes := [] |}). exists [RCombine], d, d. split; [reflexivity|].
  set (ok := fun s => match s with SStart [RCombine] d' => d' = d | SFetch RCombine [] d' => d' = d | SCombNext _ [] [[]] [] d' => d' = d | _ => False end).
  set (okb := fun b => match b with BLoop true true | BComb 0 _ | BComb 1 _ | BComb 2 _ | BComb 3 _ | BFail => True | _ => False end).
  set (okm := fun m => m = MReadyToCombine). set (oko := fun m => m = MSendFirst \/ m = MRecvFirst).
  set (inv := fun s => okb (broker s) /\ ok (sys1 s) /\ ok (sys2 s) /\ Forall oko (out1 s) /\ Forall oko (out2 s) /\ Forall okm (in1 s) /\ Forall okm (in2 s)).
  assert (I0 : inv (startNet [RCombine] d d)) by (unfold inv; cbn; repeat split; auto).
  assert (SYS : forall compute absorb s, ok s -> match nextS compute absorb s with ASend _ m s' => okm m /\ ok s' | ARecv _ k => forall m, oko m -> ok (k m) | ASelect _ => False | AStop => True end).
  { intros compute absorb s H. destruct s as [rs d'|r rs d'|f pc dn cur td rs d'|f dn td rs d'|e f pc rc rs d'|f pc rc rs d'|rs d'|d'|]; try (exfalso; exact H).
    - destruct rs as [|[| | |] [|]]; try (exfalso; exact H). cbn in *. split; [reflexivity|auto].
    - destruct r as [| | |]; try (exfalso; exact H). destruct rs; try (exfalso; exact H). cbn in *. intros m [->| ->]; subst d'; reflexivity.
    - destruct dn; try (exfalso; exact H). destruct td as [|[|] [|]]; try (exfalso; exact H). destruct rs; try (exfalso; exact H). destruct f; exact I. }
  assert (BRK : forall b, okb b -> match nextB b with ASend _ m b' => oko m /\ okb b' | ARecv _ k => forall m, okm m -> okb (k m) | ASelect k => forall i m, okm m -> okb (k i m) | AStop => True end).
  { intros b H. destruct b as [a1 a2|pc i|pc i|pc i|pc i|f r|f n r|f r|f m r|]; try (exfalso; exact H); [destruct a1, a2; try (exfalso; exact H)|destruct pc as [|[|[|[|pc]]]]|exact I].
    all: try (exfalso; exact H); cbn in *; try (intros m ->; exact I); try (split; [unfold oko; auto|exact I]).
    intros i m ->. exact I. }
  assert (STEP : forall s t, inv s -> anyStep (nextS compute1 absorb1) (nextS compute2 absorb2) s t -> inv t).
  { intros s t HI [c HS]. unfold inv in *. destruct HS as [b s1 s2 o1 o2 i1 i2 m b' E|b s1 s2 o1 o2 i1 i2 m b' E|b s1 s2 o1 o2 i1 i2 m k E|b s1 s2 o1 o2 i1 i2 m k E|b s1 s2 o1 o2 i1 i2 m k E|b s1 s2 o1 o2 i1 i2 m k E
      |b s1 s2 o1 o2 i1 i2 p m s' E|b s1 s2 o1 o2 i1 i2 p m k E|b s1 s2 o1 o2 i1 i2 p m s' E|b s1 s2 o1 o2 i1 i2 p m k E]; cbn [broker sys1 sys2 out1 out2 in1 in2] in *;
      destruct HI as (Hb & H1 & H2 & Ho1 & Ho2 & Hi1 & Hi2); pose proof (BRK b Hb) as B; pose proof (SYS compute1 absorb1 s1 H1) as S1; pose proof (SYS compute2 absorb2 s2 H2) as S2;
      rewrite E in *;
      repeat match goal with H : Forall _ (_ :: _) |- _ => inversion H; clear H; subst end;
      repeat split; try tauto; try (apply Forall_app; split; [assumption|constructor; [tauto|constructor]]); auto. }
  intros s HR e HF. apply clos_rt_rtn1 in HR. assert (HI : inv s) by (clear HF; induction HR; eauto). rewrite HF in HI. unfold inv in HI. cbn in HI. tauto.
Qed.

(** With several grids the manager expects too few values: the number of values of one grid is divided by the number of grids. *)
Theorem C42_several_grids_refuted : forall values numGrids, 0 < values -> 2 <= numGrids -> expectedSize values numGrids < values.
Proof. intros values numGrids HV HG. unfold expectedSize. apply Z.div_lt; lia. Qed.
Theorem C42_one_grid : forall values, expectedSize values 1 = values.
Proof. intros values. apply Z.div_1_r. Qed.

(** Example: two processes; sizes are unified, then two combinations with some computation in between, then files. *)
Definition exData (a : Z) : sysData := {| blocks := [[zq a; zq 1]; [zq (a + 1)]]; sizes := [2; 0; 1; a] |}.
Definition exCompute (rs : list round) (d : sysData) : sysData := {| blocks := map (map (fun x => x + 1)%Qc) (blocks d); sizes := sizes d |}.
Example C42_example : let rs := [RUnify true; RCombine; RExchange; RCombine; RFile] in let absorb := fun (_ : list Qc) d => d in
  allMatching exCompute exCompute absorb absorb rs (exData 3) (exData 5) /\
  map (map this) (blocks (fst (afterRounds exCompute exCompute absorb absorb rs (exData 3) (exData 5)))) = [[26 # 1; 14 # 1]; [30 # 1]]%Q /\
  sizes (snd (afterRounds exCompute exCompute absorb absorb rs (exData 3) (exData 5))) = [2; 0; 1; 3].
Proof. split; [|split; vm_compute; reflexivity]. cbn. repeat split; repeat constructor; try discriminate. Qed.
Print Assumptions C42_no_deadlock.
Print Assumptions C42_terminates.
Print Assumptions C42_sum.
Print Assumptions C42_empty_block_refuted.
Print Assumptions C42_several_grids_refuted.
Print Assumptions C42_one_grid.
