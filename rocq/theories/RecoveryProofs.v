(** Proofs about the recovery: an invariant of every execution and a bound of its length. *)
From Coq Require Import QArith Qcanon Permutation.
From Verif Require Import Base RecoveryModel.
Open Scope Z_scope.
Ltac Zify.zify_post_hook ::= idtac.

(** ** Lists of IDs with coefficients *)
Definition zeroed (t : tobj) : wtask := WTask (oid t) (ocoef t) Zeroed.
Definition redone (t : tobj) : wtask := WTask (oid t) (ocoef t) Redone.
Definition objOf (w : wtask) : tobj := TObj (wid w) (wcoef w).
Lemma objOf_zeroed : forall t, objOf (zeroed t) = t. Proof. now intros []. Qed.
Lemma objOf_redone : forall t, objOf (redone t) = t. Proof. now intros []. Qed.
Lemma map_objOf_zeroed : forall l, map objOf (map zeroed l) = l.
Proof. intros. rewrite map_map. rewrite (map_ext _ (fun t => t)); [apply map_id|apply objOf_zeroed]. Qed.

(** ** The effect of the rest of the program on one group *)
Definition effW (g : pgroup) : list wtask := match pending g with Some s => applyR s (wtasks g) | None => wtasks g end.
Definition effP (g : pgroup) : Z -> Qc := match pending g with Some s => applyP s (wparams g) | None => wparams g end.
Definition keepT (ig : list Z) (ts : list tobj) : list tobj := filter (fun t => negb (ignored ig t)) ts.
Definition simI (i : nat) (x : rinstr) (pw : list tobj * list wtask) : list tobj * list wtask :=
  match x with
  | RReinit g ig => if (g =? i)%nat then (keepT ig (fst pw), map zeroed (keepT ig (fst pw))) else pw
  | RReset g => if (g =? i)%nat then (fst pw, []) else pw
  | RRefresh g t => if (g =? i)%nat then (fst pw, snd pw ++ [zeroed t]) else pw
  | RRemove g t => if (g =? i)%nat then (removeObj t (fst pw), snd pw) else pw
  | _ => pw
  end.
Fixpoint sim (i : nat) (p : list rinstr) (pw : list tobj * list wtask) : list tobj * list wtask :=
  match p with [] => pw | x :: r => sim i r (simI i x pw) end.
Lemma sim_app : forall i p q pw, sim i (p ++ q) pw = sim i q (sim i p pw).
Proof. induction p; intros; cbn [sim app]; auto. Qed.
Fixpoint simC (i : nat) (p : list rinstr) (c : Z -> Qc) : Z -> Qc :=
  match p with [] => c | RParams g c' :: r => simC i r (if (g =? i)%nat then c' else c) | _ :: r => simC i r c end.
Lemma simC_app : forall i p q c, simC i (p ++ q) c = simC i q (simC i p c).
Proof. induction p as [|[] p IH]; intros; cbn [simC app]; auto. Qed.

Definition specific (x : rinstr) : bool := match x with RReinit _ _ | RReset _ | RRefresh _ _ | RRemove _ _ => true | _ => false end.
Lemma sim_nospec : forall i p pw, Forall (fun x => specific x = false) p -> sim i p pw = pw.
Proof. induction p as [|x p IH]; intros pw H; cbn [sim]; auto. inv H. rewrite IH; auto. destruct x; cbn in *; congruence. Qed.

(** Groups that have to be waiting now. *)
Fixpoint must (p : list rinstr) : list nat :=
  match p with
  | [] | RPoll :: _ => []
  | RReinit g _ :: r | RReset g :: r | RParams g _ :: r => g :: must r
  | _ :: r => must r
  end.
Fixpoint reinits (p : list rinstr) : list nat :=
  match p with [] => [] | RReinit g _ :: r => g :: reinits r | _ :: r => reinits r end.
Fixpoint wf (n : nat) (p : list rinstr) : Prop :=
  match p with
  | [] => True
  | x :: r => wf n r /\
    match x with
    | RPoll => True
    | RReinit g _ => (g < n)%nat /\ ~ In g (must r) /\ ~ In g (reinits r) /\ r <> []
    | RReset g | RRefresh g _ | RParams g _ => (g < n)%nat /\ ~ In g (must r) /\ ~ In g (reinits r) /\ r <> []
    | RRemove g _ => (g < n)%nat /\ ~ In g (reinits r) /\ r <> []
    | RAdd _ => must r = [] /\ Forall (fun x => specific x = false) r /\ r <> [] /\ (0 < n)%nat
    | RRecompute av _ => must r = [] /\ Forall (fun x => specific x = false) r /\ r <> [] /\ exists g, (g < n)%nat /\ ~ In g av
    end
  end.
Definition todo1 (x : rinstr) : list wtask := match x with RAdd t => [zeroed t] | RRecompute _ t => [redone t] | _ => [] end.
Definition todo (p : list rinstr) : list wtask := flat_map todo1 p.

Definition simG (p : list rinstr) (gs : list pgroup) (i : nat) : list tobj * list wtask :=
  sim i p (ptasks (nth i gs noGroup), effW (nth i gs noGroup)).
Definition simCG (p : list rinstr) (gs : list pgroup) (i : nat) : Z -> Qc := simC i p (effP (nth i gs noGroup)).

Record inv (n : nat) (target : list wtask) (s : rstate) : Prop := Inv {
  i_len : length (rgroups s) = n;
  i_wf : wf n (rprog s);
  i_must : forall g, In g (must (rprog s)) -> pst (rg s g) = PWait;
  i_stat : forall g, (g < n)%nat -> match pending (rg s g) with Some _ => pst (rg s g) = PBusy | None => pst (rg s g) = PWait end;
  i_nodup : forall g, In g (reinits (rprog s)) -> NoDup (map oid (ptasks (rg s g)));
  i_end : rprog s = [] -> forall g, (g < n)%nat -> pst (rg s g) = PWait;
  i_same : forall i, (i < n)%nat -> fst (simG (rprog s) (rgroups s) i) = map objOf (snd (simG (rprog s) (rgroups s) i));
  i_perm : Permutation (concat (map (fun i => snd (simG (rprog s) (rgroups s) i)) (seq 0 n)) ++ todo (rprog s)) target
}.

(** ** Steps *)
Lemma rg_set_same : forall s p g x, (g < length (rgroups s))%nat -> rg (setG s p g x) g = x.
Proof. intros. unfold rg, setG. cbn [rgroups]. now apply nth_upd_same. Qed.
Lemma rg_set_other : forall s p g x i, i <> g -> rg (setG s p g x) i = rg s i.
Proof. intros. unfold rg, setG. cbn [rgroups]. apply nth_upd_other; congruence. Qed.

Lemma must_app_free : forall p q, Forall (fun x => match x with RRefresh _ _ | RRemove _ _ => True | _ => False end) p -> must (p ++ q) = must q.
Proof. induction p as [|x p IH]; intros q H; auto. inv H. destruct x; try tauto; cbn [app must]; auto. Qed.
Lemma reinits_app_free : forall p q, Forall (fun x => match x with RRefresh _ _ | RRemove _ _ => True | _ => False end) p -> reinits (p ++ q) = reinits q.
Proof. induction p as [|x p IH]; intros q H; auto. inv H. destruct x; try tauto; cbn [app reinits]; auto. Qed.

Definition body (g : nat) (ig : list Z) (ts : list tobj) : list rinstr :=
  map (RRefresh g) (keepT ig ts) ++ map (RRemove g) (filter (ignored ig) ts).
Lemma body_free : forall g ig ts, Forall (fun x => match x with RRefresh _ _ | RRemove _ _ => True | _ => False end) (body g ig ts).
Proof. intros. apply Forall_app. split; apply Forall_forall; intros x H; apply in_map_iff in H as (t & <- & _); exact I. Qed.
Lemma must_reinits_app : forall g ig ts r, must (expandReinit g ig ts ++ r) = g :: must r /\ reinits (expandReinit g ig ts ++ r) = reinits r.
Proof.
  intros. unfold expandReinit. cbn [app must reinits]. fold (keepT ig ts). change (map (RRefresh g) (keepT ig ts) ++ _) with (body g ig ts).
  rewrite must_app_free, reinits_app_free; auto using body_free.
Qed.
Lemma wf_expand : forall n g ig ts r, wf n r -> (g < n)%nat -> ~ In g (must r) -> ~ In g (reinits r) -> r <> [] -> wf n (expandReinit g ig ts ++ r).
Proof.
  intros n g ig ts r W L M R N. unfold expandReinit. fold (keepT ig ts). cbn [app wf].
  change (map (RRefresh g) (keepT ig ts) ++ _) with (body g ig ts).
  assert (NE : forall p : list rinstr, p ++ r <> []) by (intros [|] E; [now apply N|discriminate]).
  split; [|rewrite must_app_free, reinits_app_free; auto using body_free].
  unfold body. rewrite <- app_assoc.
  assert (W2 : wf n (map (RRemove g) (filter (ignored ig) ts) ++ r)).
  { induction (filter (ignored ig) ts) as [|t l IH]; auto. cbn [map app wf]. split; auto. split; auto. split; [|apply NE].
    rewrite reinits_app_free; auto. apply Forall_forall. intros x H. apply in_map_iff in H as (u & <- & _). exact I. }
  induction (keepT ig ts) as [|t l IH]; auto. cbn [map app wf]. split; auto. split; auto. split; [|split; [|rewrite app_assoc; apply NE]];
    rewrite app_assoc, ?must_app_free, ?reinits_app_free; auto; apply Forall_app; split; apply Forall_forall; intros x H; apply in_map_iff in H as (u & <- & _); exact I.
Qed.

(** Removing the tasks to ignore one by one leaves the others. *)
Lemma sim_refresh : forall i l pw, sim i (map (RRefresh i) l) pw = (fst pw, snd pw ++ map zeroed l).
Proof. induction l as [|t l IH]; intros [p w]; cbn [sim map simI fst snd]; [now rewrite app_nil_r|]. rewrite Nat.eqb_refl, IH. cbn [fst snd]. now rewrite <- app_assoc. Qed.
Lemma sim_remove : forall i l pw, sim i (map (RRemove i) l) pw = (fold_left (fun p t => removeObj t p) l (fst pw), snd pw).
Proof. induction l as [|t l IH]; intros [p w]; cbn [sim map simI fst snd fold_left]; auto. rewrite Nat.eqb_refl, IH. auto. Qed.
Lemma removeObj_notin : forall t l, ~ In (oid t) (map oid l) -> removeObj t l = l.
Proof.
  induction l as [|x l IH]; intros H; cbn [removeObj]; auto. destruct (Z.eqb_spec (oid x) (oid t)) as [E|E]; [exfalso; apply H; simpl; auto|].
  f_equal. apply IH. intros K. apply H. simpl; auto.
Qed.
Lemma remove_all : forall ig done ts, NoDup (map oid (done ++ ts)) -> Forall (fun t => ignored ig t = false) done ->
  fold_left (fun p t => removeObj t p) (filter (ignored ig) ts) (done ++ ts) = done ++ keepT ig ts.
Proof.
  intros ig done ts. revert done. induction ts as [|t ts IH]; intros done ND HD; cbn [filter keepT fold_left]; auto.
  destruct (ignored ig t) eqn:E; cbn [negb].
  - cbn [fold_left]. assert (ER : removeObj t (done ++ t :: ts) = done ++ ts).
    { clear - ND. induction done as [|d done IH]; cbn [app removeObj]; [now rewrite Z.eqb_refl|].
      rewrite map_app in ND. cbn [app map] in ND. inv ND. destruct (Z.eqb_spec (oid d) (oid t)) as [E|E].
      - exfalso. match goal with H : ~ In (oid d) _ |- _ => apply H end. rewrite E. apply in_app_iff. right. now left.
      - f_equal. apply IH. now rewrite map_app. }
    rewrite ER. apply IH; auto. rewrite map_app in *. cbn [map] in ND. now apply NoDup_remove_1 in ND.
  - replace (done ++ t :: ts) with ((done ++ [t]) ++ ts) by now rewrite <- app_assoc.
    rewrite IH; [now rewrite <- app_assoc|now rewrite <- app_assoc|]. apply Forall_app. auto.
Qed.
Lemma sim_expand : forall i g ig ts w, NoDup (map oid ts) ->
  sim i (expandReinit g ig ts) (ts, w) = simI i (RReinit g ig) (ts, w) \/ g <> i.
Proof.
  intros i g ig ts w ND. destruct (Nat.eq_dec g i) as [->|N]; [left|now right]. unfold expandReinit. cbn [sim simI]. rewrite Nat.eqb_refl. cbn [fst snd].
  rewrite sim_app, sim_refresh, sim_remove. cbn [fst snd app]. pose proof (remove_all ig [] ts ND (Forall_nil _)) as E. cbn [app] in E. now rewrite E.
Qed.
Lemma sim_expand_other : forall i g ig ts pw, g <> i -> sim i (expandReinit g ig ts) pw = pw.
Proof.
  intros i g ig ts pw N. unfold expandReinit. cbn [sim simI]. apply Nat.eqb_neq in N. rewrite N, sim_app.
  assert (A : forall l pw, sim i (map (RRefresh g) l) pw = pw) by (induction l; intros; cbn [map sim simI]; auto; now rewrite N).
  assert (B : forall l pw, sim i (map (RRemove g) l) pw = pw) by (induction l; intros; cbn [map sim simI]; auto; now rewrite N).
  now rewrite A, B.
Qed.
Lemma todo_expand : forall g ig ts r, todo (expandReinit g ig ts ++ r) = todo r.
Proof.
  intros. unfold todo, expandReinit. cbn [app flat_map todo1]. rewrite !flat_map_app.
  assert (A : forall l, flat_map todo1 (map (RRefresh g) l) = []) by (induction l; auto).
  assert (B : forall l, flat_map todo1 (map (RRemove g) l) = []) by (induction l; auto).
  now rewrite A, B.
Qed.
Lemma concat_upd : forall (A : Type) (l : list (list A)) g x, (g < length l)%nat ->
  Permutation (concat (upd l g (nth g l [] ++ x))) (x ++ concat l).
Proof.
  induction l as [|a l IH]; intros g x H; cbn [length] in H; [lia|]. destruct g as [|g]; cbn [upd nth concat].
  - rewrite <- app_assoc. rewrite Permutation_app_comm. rewrite <- app_assoc. apply Permutation_app_head. apply Permutation_app_comm.
  - rewrite (IH g x) by lia. rewrite !app_assoc. apply Permutation_app_tail. apply Permutation_app_comm.
Qed.

Lemma inv_build : forall n T s s', inv n T s -> length (rgroups s') = n -> wf n (rprog s') ->
  (forall g, In g (must (rprog s')) -> pst (rg s' g) = PWait) ->
  (forall g, (g < n)%nat -> match pending (rg s' g) with Some _ => pst (rg s' g) = PBusy | None => pst (rg s' g) = PWait end) ->
  (forall g, In g (reinits (rprog s')) -> NoDup (map oid (ptasks (rg s' g)))) ->
  (rprog s' = [] -> forall g, (g < n)%nat -> pst (rg s' g) = PWait) ->
  (forall i, (i < n)%nat -> simG (rprog s') (rgroups s') i = simG (rprog s) (rgroups s) i) ->
  todo (rprog s') = todo (rprog s) -> inv n T s'.
Proof.
  intros n T s s' I L W M S N E Q TD. constructor; auto.
  - intros i Hi. rewrite Q; auto. apply (i_same _ _ _ I i Hi).
  - rewrite TD. rewrite (map_ext_in _ (fun i => snd (simG (rprog s) (rgroups s) i))).
    + apply (i_perm _ _ _ I).
    + intros i Hi. apply in_seq in Hi. rewrite Q by lia. reflexivity.
Qed.

Lemma simG_set : forall s p g x i, (g < length (rgroups s))%nat ->
  simG p (rgroups (setG s (rprog s) g x)) i = if (g =? i)%nat then sim i p (ptasks x, effW x) else simG p (rgroups s) i.
Proof.
  intros s p g x i H. unfold simG, setG. cbn [rgroups]. destruct (Nat.eqb_spec g i) as [->|N].
  - now rewrite nth_upd_same.
  - now rewrite nth_upd_other.
Qed.
Lemma effW_wait : forall g, pending g = None -> effW g = wtasks g.
Proof. intros g H. unfold effW. now rewrite H. Qed.
Lemma wait_pending : forall n T s g, inv n T s -> (g < n)%nat -> pst (rg s g) = PWait -> pending (rg s g) = None.
Proof. intros n T s g I H E. pose proof (i_stat _ _ _ I g H) as S. destruct (pending (rg s g)); congruence. Qed.

(** A signal is sent to group [g]; the rest of the program has no requirement on it. *)
Lemma inv_send : forall n T s x p g y, inv n T s -> rprog s = x :: p -> (g < n)%nat -> p <> [] -> ~ In g (must p) ->
  (forall i, In i (must p) -> In i (must (x :: p))) ->
  ~ In g (reinits p) -> (forall i, In i (reinits p) -> In i (reinits (x :: p))) ->
  pst y = PBusy -> (exists z, pending y = Some z) -> todo1 x = [] ->
  (ptasks y, effW y) = simI g x (ptasks (rg s g), effW (rg s g)) ->
  (forall i pw, i <> g -> simI i x pw = pw) ->
  inv n T (setG s p g y).
Proof.
  intros n T s x p g y I EP G NE M MI R RI PB [z PZ] TD Y SO. pose proof (i_len _ _ _ I) as L.
  pose proof (i_wf _ _ _ I) as W. rewrite EP in W. cbn [wf] in W. destruct W as [W _].
  apply (inv_build n T s); auto.
  - unfold setG. cbn [rgroups]. now rewrite upd_length.
  - intros i Hi. change (rprog (setG s p g y)) with p in Hi. rewrite rg_set_other by (intros ->; auto). apply (i_must _ _ _ I). rewrite EP. auto.
  - intros i Hi. destruct (Nat.eq_dec i g) as [->|N]; [rewrite rg_set_same by lia; now rewrite PZ|]. rewrite rg_set_other by auto. now apply (i_stat _ _ _ I).
  - intros i Hi. change (rprog (setG s p g y)) with p in Hi. rewrite rg_set_other by (intros ->; auto). apply (i_nodup _ _ _ I). rewrite EP. auto.
  - change (rprog (setG s p g y)) with p. congruence.
  - intros i Hi. change (rprog (setG s p g y)) with p. rewrite EP. change (rgroups (setG s p g y)) with (rgroups (setG s (rprog s) g y)).
    rewrite simG_set by lia. unfold simG at 2. cbn [sim]. destruct (Nat.eqb_spec g i) as [<-|N].
    + rewrite Y. reflexivity.
    + rewrite SO by auto. reflexivity.
  - change (rprog (setG s p g y)) with p. rewrite EP. unfold todo. cbn [flat_map]. now rewrite TD.
Qed.

(** A task is given to group [g]. *)
Lemma inv_give : forall n T s x p g y w, inv n T s -> rprog s = x :: p -> (g < n)%nat -> p <> [] -> must p = [] ->
  Forall (fun x => specific x = false) p -> specific x = false ->
  pst y = PBusy -> (exists z, pending y = Some z) -> todo1 x = [w] ->
  ptasks y = ptasks (rg s g) ++ [objOf w] -> effW y = effW (rg s g) ++ [w] ->
  inv n T (setG s p g y).
Proof.
  intros n T s x p g y w I EP G NE M F FX PB [z PZ] TD Y1 Y2. pose proof (i_len _ _ _ I) as L.
  pose proof (i_wf _ _ _ I) as W. rewrite EP in W. cbn [wf] in W. destruct W as [W _].
  assert (RE : reinits p = []). { clear - F. induction p as [|a p IH]; auto. inv F. destruct a; cbn in *; try discriminate; auto. }
  assert (SG : forall q gs i, Forall (fun x => specific x = false) q -> simG q gs i = (ptasks (nth i gs noGroup), effW (nth i gs noGroup))).
  { intros. unfold simG. now rewrite sim_nospec. }
  assert (F' : Forall (fun x => specific x = false) (x :: p)) by (constructor; auto).
  assert (S1 : forall i, simG p (rgroups (setG s p g y)) i = if (g =? i)%nat then (ptasks (rg s g) ++ [objOf w], effW (rg s g) ++ [w]) else (ptasks (rg s i), effW (rg s i))).
  { intros i. rewrite SG by auto. unfold setG. cbn [rgroups]. destruct (Nat.eqb_spec g i) as [<-|N].
    - rewrite nth_upd_same by lia. now rewrite Y1, Y2.
    - rewrite nth_upd_other by auto. reflexivity. }
  constructor; auto.
  - unfold setG. cbn [rgroups]. now rewrite upd_length.
  - intros i Hi. change (rprog (setG s p g y)) with p in Hi. rewrite M in Hi. destruct Hi.
  - intros i Hi. destruct (Nat.eq_dec i g) as [->|N]; [rewrite rg_set_same by lia; now rewrite PZ|]. rewrite rg_set_other by auto. now apply (i_stat _ _ _ I).
  - intros i Hi. change (rprog (setG s p g y)) with p in Hi. rewrite RE in Hi. destruct Hi.
  - change (rprog (setG s p g y)) with p. congruence.
  - intros i Hi. change (rprog (setG s p g y)) with p. rewrite S1. pose proof (i_same _ _ _ I i Hi) as E. rewrite EP, SG in E by auto. cbn [fst snd] in E.
    destruct (Nat.eqb_spec g i) as [<-|N]; cbn [fst snd].
    + fold (rg s g) in E. now rewrite E, map_app.
    + exact E.
  - change (rprog (setG s p g y)) with p. eapply perm_trans; [|apply (i_perm _ _ _ I)]. rewrite EP.
    unfold todo. cbn [flat_map]. rewrite TD.
    set (old := map (fun i => snd (simG (x :: p) (rgroups s) i)) (seq 0 n)).
    assert (LO : length old = n) by (unfold old; now rewrite map_length, seq_length).
    assert (NO : forall i, (i < n)%nat -> nth i old [] = effW (rg s i)).
    { intros i Hi. unfold old. rewrite (nth_indep _ [] (snd (simG (x :: p) (rgroups s) 0))) by (rewrite map_length, seq_length; lia).
      rewrite (map_nth (fun i => snd (simG (x :: p) (rgroups s) i))). rewrite seq_nth by lia. rewrite SG by auto. reflexivity. }
    replace (map (fun i => snd (simG p (rgroups (setG s p g y)) i)) (seq 0 n)) with (upd old g (nth g old [] ++ [w])).
    + rewrite (concat_upd _ old g [w]) by lia. cbn [app]. apply Permutation_middle.
    + apply (nth_ext _ _ [] []); [now rewrite upd_length, map_length, seq_length|]. rewrite upd_length, LO. intros i Hi.
      rewrite (nth_indep (map _ _) [] (snd (simG p (rgroups (setG s p g y)) 0))) by (rewrite map_length, seq_length; lia).
      rewrite (map_nth (fun i => snd (simG p (rgroups (setG s p g y)) i))). rewrite seq_nth by lia. cbn [plus]. rewrite S1.
      destruct (Nat.eqb_spec g i) as [<-|N]; cbn [snd].
      * rewrite nth_upd_same by lia. now rewrite NO.
      * rewrite nth_upd_other by auto. now apply NO.
Qed.

Lemma in_must_head : forall x p i, x <> RPoll -> In i (must p) -> In i (must (x :: p)).
Proof. intros x p i N H. destruct x; try congruence; cbn [must]; auto; right; auto. Qed.
Lemma in_reinits_head : forall x p i, In i (reinits p) -> In i (reinits (x :: p)).
Proof. intros x p i H. destruct x; cbn [reinits]; auto; right; auto. Qed.

Lemma inv_step : forall n T s s', inv n T s -> rstep s s' -> inv n T s'.
Proof.
  intros n T s s' I H. pose proof (i_len _ _ _ I) as L. pose proof (i_wf _ _ _ I) as W.
  inversion H as [? p EP FA|? g ig p EP G|? g p EP G SW|? g t p EP G SW|? g t p EP G|? g t p EP G SW|? g av t p EP G NA SW|? g c p EP G SW|? g x G PE]; subst.
  - (* poll *) rewrite EP in W. cbn [wf] in W. destruct W as [W _].
    assert (AW : forall g, (g < length (rgroups s))%nat -> pst (rg s g) = PWait). { intros g Hg. rewrite Forall_forall in FA. apply FA. now apply nth_In. }
    apply (inv_build _ T s); auto; cbn [rprog rgroups]; change (rg (RState p (rgroups s))) with (rg s).
    + intros g Hg. apply AW. clear - W Hg. induction p as [|x p IH]; [destruct Hg|]. cbn [wf] in W. destruct W as [W X].
      destruct x; cbn [must] in Hg; auto; try (now destruct Hg); try (destruct Hg as [<-|Hg]; [tauto|auto]).
    + apply (i_stat _ _ _ I).
    + intros g Hg. apply (i_nodup _ _ _ I). rewrite EP. exact Hg.
    + intros i Hi. now rewrite EP.
    + now rewrite EP.
  - (* reinit *) rewrite EP in W. cbn [wf] in W. destruct W as (W & G' & M & R & NE).
    pose proof (must_reinits_app g ig (ptasks (rg s g)) p) as [EM ER].
    assert (ND : NoDup (map oid (ptasks (rg s g)))) by (apply (i_nodup _ _ _ I); rewrite EP; now left).
    apply (inv_build _ T s); auto; cbn [rprog rgroups]; change (rg (RState (expandReinit g ig (ptasks (rg s g)) ++ p) (rgroups s))) with (rg s).
    + now apply wf_expand.
    + intros i Hi. apply (i_must _ _ _ I). rewrite EP. cbn [must]. now rewrite EM in Hi.
    + apply (i_stat _ _ _ I).
    + intros i Hi. apply (i_nodup _ _ _ I). rewrite EP. right. now rewrite ER in Hi.
    + intros E. destruct (app_eq_nil _ _ E). contradiction.
    + intros i Hi. rewrite EP. unfold simG. rewrite sim_app. cbn [sim]. f_equal. destruct (Nat.eq_dec g i) as [<-|N].
      * destruct (sim_expand g g ig (ptasks (rg s g)) (effW (rg s g)) ND); [auto|congruence].
      * rewrite sim_expand_other by auto. cbn [simI]. apply Nat.eqb_neq in N. now rewrite N.
    + rewrite EP, todo_expand. reflexivity.
  - (* reset *) rewrite EP in W. cbn [wf] in W. destruct W as (W & G' & M & R & NE).
    apply (inv_send _ T s (RReset g) p); auto using in_reinits_head; try (intros; apply in_must_head; [discriminate|auto]); try reflexivity.
    + eexists; reflexivity.
    + cbn [simI]. rewrite Nat.eqb_refl. reflexivity.
    + intros i pw N. cbn [simI]. apply not_eq_sym, Nat.eqb_neq in N. now rewrite N.
  - (* refresh *) rewrite EP in W. cbn [wf] in W. destruct W as (W & G' & M & R & NE).
    apply (inv_send _ T s (RRefresh g t) p); auto using in_reinits_head; try (intros; apply in_must_head; [discriminate|auto]); try reflexivity.
    + eexists; reflexivity.
    + cbn [simI]. rewrite Nat.eqb_refl. cbn [fst snd]. unfold effW at 1. cbn [sendR pending applyR wtasks ptasks].
      rewrite (effW_wait (rg s g)) by (apply (wait_pending (length (rgroups s)) T s); auto). reflexivity.
    + intros i pw N. cbn [simI]. apply not_eq_sym, Nat.eqb_neq in N. now rewrite N.
  - (* remove *) rewrite EP in W. cbn [wf] in W. destruct W as (W & G' & R & NE).
    assert (P : forall i, pst (rg (setG s p g (dropR t (rg s g))) i) = pst (rg s i) /\ pending (rg (setG s p g (dropR t (rg s g))) i) = pending (rg s i)).
    { intros i. destruct (Nat.eq_dec i g) as [->|N]; [rewrite rg_set_same by lia; auto|rewrite rg_set_other by auto; auto]. }
    apply (inv_build _ T s); auto.
    + unfold setG. cbn [rgroups]. now rewrite upd_length.
    + intros i Hi. rewrite (proj1 (P i)). apply (i_must _ _ _ I). rewrite EP. exact Hi.
    + intros i Hi. rewrite (proj1 (P i)), (proj2 (P i)). now apply (i_stat _ _ _ I).
    + intros i Hi. change (rprog (setG s p g (dropR t (rg s g)))) with p in Hi. rewrite rg_set_other by (intros ->; auto). apply (i_nodup _ _ _ I). rewrite EP. exact Hi.
    + change (rprog (setG s p g (dropR t (rg s g)))) with p. congruence.
    + intros i Hi. change (rprog (setG s p g (dropR t (rg s g)))) with p. rewrite EP.
      change (rgroups (setG s p g (dropR t (rg s g)))) with (rgroups (setG s (rprog s) g (dropR t (rg s g)))).
      rewrite simG_set by lia. unfold simG at 2. cbn [sim simI]. destruct (Nat.eqb_spec g i) as [<-|N]; reflexivity.
    + change (rprog (setG s p g (dropR t (rg s g)))) with p. now rewrite EP.
  - (* add *) rewrite EP in W. cbn [wf] in W. destruct W as (W & M & F & NE & _).
    apply (inv_give _ T s (RAdd t) p g _ (zeroed t)); auto; try reflexivity.
    + eexists; reflexivity.
    + cbn [sendR storeR ptasks]. now rewrite objOf_zeroed.
    + unfold effW at 1. cbn [sendR storeR pending applyR wtasks]. rewrite (effW_wait (rg s g)) by (apply (wait_pending (length (rgroups s)) T s); auto). reflexivity.
  - (* recompute *) rewrite EP in W. cbn [wf] in W. destruct W as (W & M & F & NE & _).
    apply (inv_give _ T s (RRecompute av t) p g _ (redone t)); auto; try reflexivity.
    + eexists; reflexivity.
    + cbn [sendR storeR ptasks]. now rewrite objOf_redone.
    + unfold effW at 1. cbn [sendR storeR pending applyR wtasks]. rewrite (effW_wait (rg s g)) by (apply (wait_pending (length (rgroups s)) T s); auto). reflexivity.
  - (* params *) rewrite EP in W. cbn [wf] in W. destruct W as (W & G' & M & R & NE).
    apply (inv_send _ T s (RParams g c) p); auto using in_reinits_head; try (intros; apply in_must_head; [discriminate|auto]); try reflexivity.
    + eexists; reflexivity.
    + cbn [simI sendR ptasks]. f_equal. unfold effW at 1. cbn [sendR pending applyR wtasks].
      rewrite (effW_wait (rg s g)) by (apply (wait_pending (length (rgroups s)) T s); auto). reflexivity.
  - (* complete *)
    assert (P : forall i, ptasks (rg (setG s (rprog s) g (completeR x (rg s g))) i) = ptasks (rg s i) /\ effW (rg (setG s (rprog s) g (completeR x (rg s g))) i) = effW (rg s i)).
    { intros i. destruct (Nat.eq_dec i g) as [->|N]; [rewrite rg_set_same by lia|rewrite rg_set_other by auto; auto]. split; auto.
      unfold effW. cbn [completeR pending wtasks]. now rewrite PE. }
    apply (inv_build _ T s); auto.
    + unfold setG. cbn [rgroups]. now rewrite upd_length.
    + intros i Hi. destruct (Nat.eq_dec i g) as [->|N]; [rewrite rg_set_same by lia; reflexivity|rewrite rg_set_other by auto]. now apply (i_must _ _ _ I).
    + intros i Hi. destruct (Nat.eq_dec i g) as [->|N]; [rewrite rg_set_same by lia; reflexivity|rewrite rg_set_other by auto]. now apply (i_stat _ _ _ I).
    + intros i Hi. rewrite (proj1 (P i)). now apply (i_nodup _ _ _ I).
    + intros E i Hi. destruct (Nat.eq_dec i g) as [->|N]; [rewrite rg_set_same by lia; reflexivity|rewrite rg_set_other by auto]. now apply (i_end _ _ _ I).
    + intros i Hi. unfold simG. change (nth i (rgroups (setG s (rprog s) g (completeR x (rg s g)))) noGroup) with (rg (setG s (rprog s) g (completeR x (rg s g))) i).
      rewrite (proj1 (P i)), (proj2 (P i)). reflexivity.
Qed.

(** The coefficients in the parameters of the workers. *)
Lemma simC_step : forall s s' i, (i < length (rgroups s))%nat -> rstep s s' -> (forall g, pst (rg s g) = PWait -> pending (rg s g) = None) ->
  simCG (rprog s') (rgroups s') i = simCG (rprog s) (rgroups s) i.
Proof.
  intros s s' i Hi H PW.
  assert (O : forall p g x, (g < length (rgroups s))%nat -> effP x = effP (rg s g) -> simCG p (rgroups (setG s p g x)) i = simCG p (rgroups s) i).
  { intros p g x G E. unfold simCG. change (nth i (rgroups (setG s p g x)) noGroup) with (rg (setG s p g x) i).
    destruct (Nat.eq_dec i g) as [->|N]; [rewrite rg_set_same by lia; now rewrite E|now rewrite rg_set_other by auto]. }
  inversion H as [? p EP FA|? g ig p EP G|? g p EP G SW|? g t p EP G SW|? g t p EP G|? g t p EP G SW|? g av t p EP G NA SW|? g c p EP G SW|? g x G PE]; subst; rewrite ?EP; cbn [rprog];
    try (change (rprog (setG s p g _)) with p).
  - reflexivity.
  - cbn [rgroups]. unfold simCG. rewrite simC_app. cbn [simC]. f_equal. unfold expandReinit. cbn [simC]. rewrite simC_app.
    assert (A : forall l c, simC i (map (RRefresh g) l) c = c) by (induction l; intros; cbn [map simC]; auto).
    assert (B : forall l c, simC i (map (RRemove g) l) c = c) by (induction l; intros; cbn [map simC]; auto).
    now rewrite A, B.
  - rewrite O; auto. unfold effP. cbn [sendR pending applyP wparams]. now rewrite PW.
  - rewrite O; auto. unfold effP. cbn [sendR pending applyP wparams]. now rewrite PW.
  - now rewrite O.
  - rewrite O; auto. unfold effP. cbn [sendR storeR pending applyP wparams]. now rewrite PW.
  - rewrite O; auto. unfold effP. cbn [sendR storeR pending applyP wparams]. now rewrite PW.
  - unfold simCG. change (nth i (rgroups (setG s p g (sendR (GParams c) (rg s g)))) noGroup) with (rg (setG s p g (sendR (GParams c) (rg s g))) i).
    cbn [simC]. f_equal. destruct (Nat.eqb_spec g i) as [->|N]; [now rewrite rg_set_same by lia|now rewrite rg_set_other by auto].
  - apply O; auto. unfold effP. cbn [completeR pending wparams]. now rewrite PE.
Qed.

(** ** Progress *)
Lemma inv_progress : forall n T s, inv n T s -> rprog s <> [] -> exists s', rstep s s'.
Proof.
  intros n T s I NE. pose proof (i_len _ _ _ I) as L. pose proof (i_wf _ _ _ I) as W.
  assert (C : (forall g, (g < n)%nat -> pst (rg s g) = PWait) \/ exists s', rstep s s').
  { assert (D : forall m, (m <= n)%nat -> (forall g, (g < m)%nat -> pst (rg s g) = PWait) \/ exists s', rstep s s').
    { induction m as [|m IH]; intros Hm; [left; intros; lia|]. destruct IH as [A|A]; [lia| |now right].
      pose proof (i_stat _ _ _ I m ltac:(lia)) as S. destruct (pending (rg s m)) as [x|] eqn:E.
      - right. eexists. apply (rs_complete s m x); auto. lia.
      - left. intros g Hg. destruct (Nat.eq_dec g m) as [->|]; auto. apply A. lia. }
    apply D. lia. }
  destruct C as [A|?]; [|auto].
  destruct (rprog s) as [|x p] eqn:EP; [congruence|]. cbn [wf] in W. destruct W as [W X].
  destruct x; try (destruct X as (X & _)).
  - eexists. apply (rs_poll s p); auto. apply Forall_forall. intros y Hy. apply (In_nth _ _ noGroup) in Hy as (i & Hi & <-). apply A. lia.
  - eexists. apply (rs_reinit s _ _ p EP). lia.
  - eexists. apply (rs_reset s _ p EP); [lia|auto].
  - eexists. apply (rs_refresh s _ _ p EP); [lia|auto].
  - eexists. apply (rs_remove s _ _ p EP). lia.
  - cbn [wf] in *. pose proof (i_wf _ _ _ I) as W2. rewrite EP in W2. cbn [wf] in W2. destruct W2 as (_ & _ & _ & _ & P).
    eexists. apply (rs_add s 0%nat _ p EP); [lia|auto].
  - pose proof (i_wf _ _ _ I) as W2. rewrite EP in W2. cbn [wf] in W2. destruct W2 as (_ & _ & _ & _ & g & Hg & NA).
    eexists. apply (rs_recompute s g _ _ p EP); [lia|auto|auto].
  - eexists. apply (rs_params s _ _ p EP); [lia|auto].
Qed.

(** ** Termination *)
Definition weight (gs : list pgroup) (x : rinstr) : nat :=
  match x with RPoll | RRemove _ _ => 1 | RReinit g _ => 3 + 2 * length (ptasks (nth g gs noGroup)) | _ => 2 end.
Definition pend (g : pgroup) : nat := match pending g with Some _ => 1 | None => 0 end.
Definition measure (s : rstate) : nat := list_sum (map (weight (rgroups s)) (rprog s)) + list_sum (map pend (rgroups s)).
Lemma pend_upd : forall gs g x, (g < length gs)%nat -> (list_sum (map pend (upd gs g x)) + pend (nth g gs noGroup) = list_sum (map pend gs) + pend x)%nat.
Proof.
  induction gs as [|a gs IH]; intros g x H; cbn [length] in H; [lia|]. destruct g as [|g]; cbn [upd map list_sum fold_right nth]; [lia|].
  change (fold_right Nat.add 0%nat (map pend (upd gs g x))) with (list_sum (map pend (upd gs g x))).
  change (fold_right Nat.add 0%nat (map pend gs)) with (list_sum (map pend gs)). specialize (IH g x ltac:(lia)). lia.
Qed.
Lemma removeObj_len : forall t l, (length (removeObj t l) <= length l)%nat.
Proof. induction l as [|x l IH]; cbn [removeObj length]; [lia|]. destruct (oid x =? oid t); cbn [length]; lia. Qed.
Lemma weight_upd : forall gs g x p, (g < length gs)%nat -> (length (ptasks x) <= length (ptasks (nth g gs noGroup)))%nat ->
  (list_sum (map (weight (upd gs g x)) p) <= list_sum (map (weight gs) p))%nat.
Proof.
  intros gs g x p G H. induction p as [|y p IH]; cbn [map list_sum fold_right]; [lia|].
  change (fold_right Nat.add 0%nat (map (weight (upd gs g x)) p)) with (list_sum (map (weight (upd gs g x)) p)).
  change (fold_right Nat.add 0%nat (map (weight gs) p)) with (list_sum (map (weight gs) p)).
  assert ((weight (upd gs g x) y <= weight gs y)%nat); [|lia]. destruct y as [| k ? | | | | | |]; cbn [weight]; try lia.
  destruct (Nat.eq_dec g k) as [<-|N]; [rewrite nth_upd_same by auto; lia|rewrite nth_upd_other by auto; lia].
Qed.
Lemma weight_nospec : forall gs gs' p, Forall (fun x => specific x = false) p -> map (weight gs) p = map (weight gs') p.
Proof. intros gs gs' p H. apply map_ext_in. intros y Hy. rewrite Forall_forall in H. specialize (H y Hy). destruct y; cbn in *; auto; discriminate. Qed.
Lemma measure_step : forall n T s s', inv n T s -> rstep s s' -> (measure s' < measure s)%nat.
Proof.
  intros n T s s' I H. pose proof (i_len _ _ _ I) as L. pose proof (i_wf _ _ _ I) as W.
  assert (LS : forall a b, list_sum (a ++ b) = (list_sum a + list_sum b)%nat) by apply list_sum_app.
  assert (LC : forall a b, list_sum (a :: b) = (a + list_sum b)%nat) by reflexivity.
  assert (B : forall p g y k, (g < length (rgroups s))%nat -> (length (ptasks y) <= length (ptasks (rg s g)))%nat ->
     (pend y < k + pend (rg s g))%nat -> list_sum (map (weight (rgroups s)) (rprog s)) = (k + list_sum (map (weight (rgroups s)) p))%nat ->
     (measure (setG s p g y) < measure s)%nat).
  { intros p g y k G HP HK HE. unfold measure. rewrite HE. unfold setG. cbn [rprog rgroups].
    pose proof (weight_upd (rgroups s) g y p G HP). pose proof (pend_upd (rgroups s) g y G) as PU. unfold rg in HK. lia. }
  assert (PW : forall g, (g < length (rgroups s))%nat -> pst (rg s g) = PWait -> pend (rg s g) = 0%nat).
  { intros g G SW. unfold pend. now rewrite (wait_pending n T s g I ltac:(lia) SW). }
  inversion H as [? p EP FA|? g ig p EP G|? g p EP G SW|? g t p EP G SW|? g t p EP G|? g t p EP G SW|? g av t p EP G NA SW|? g c p EP G SW|? g x G PE]; subst.
  - unfold measure. cbn [rprog rgroups]. rewrite EP. cbn [map]. rewrite LC. cbn [weight]. lia.
  - unfold measure. cbn [rprog rgroups]. rewrite EP. rewrite map_app, LS. cbn [map]. rewrite LC. unfold expandReinit. cbn [map]. rewrite LC.
    rewrite map_app, LS. rewrite !map_map. cbn [weight]. fold (rg s g).
    assert (A : forall (f : tobj -> nat) c l, (forall t, f t = c) -> list_sum (map f l) = (c * length l)%nat).
    { intros f c l Hf. induction l as [|t l IH]; cbn [map length]; [cbn; lia|]. rewrite LC, IH, Hf. lia. }
    rewrite (A _ 2%nat), (A _ 1%nat) by reflexivity.
    assert (FL : forall (f : tobj -> bool) l, (length (filter (fun t => negb (f t)) l) + length (filter f l) = length l)%nat).
    { intros f l. induction l as [|t l IH]; cbn [filter length]; auto. destruct (f t); cbn [negb length]; lia. }
    pose proof (FL (ignored ig) (ptasks (rg s g))). lia.
  - apply (B p g _ 2%nat); auto; [cbn; rewrite PW; auto|rewrite EP; reflexivity].
  - apply (B p g _ 2%nat); auto; [cbn; rewrite PW; auto|rewrite EP; reflexivity].
  - apply (B p g _ 1%nat); auto; [apply removeObj_len|rewrite EP; reflexivity].
  - rewrite EP in W. cbn [wf] in W. destruct W as (W & M & F & NE & _). unfold measure. rewrite EP. unfold setG. cbn [rprog rgroups map]. rewrite LC. cbn [weight].
    rewrite (weight_nospec _ (rgroups s) p F).
    match goal with |- context [upd _ g ?y] => pose proof (pend_upd (rgroups s) g y G) as PU; assert (P1 : pend y = 1%nat) by reflexivity end.
    pose proof (PW g G SW) as P0. unfold rg in P0. lia.
  - rewrite EP in W. cbn [wf] in W. destruct W as (W & M & F & NE & _). unfold measure. rewrite EP. unfold setG. cbn [rprog rgroups map]. rewrite LC. cbn [weight].
    rewrite (weight_nospec _ (rgroups s) p F).
    match goal with |- context [upd _ g ?y] => pose proof (pend_upd (rgroups s) g y G) as PU; assert (P1 : pend y = 1%nat) by reflexivity end.
    pose proof (PW g G SW) as P0. unfold rg in P0. lia.
  - apply (B p g _ 2%nat); auto; [cbn; rewrite PW; auto|rewrite EP; reflexivity].
  - apply (B (rprog s) g _ 0%nat); auto. unfold pend. cbn [completeR pending]. rewrite PE. lia.
Qed.
Lemma inv_steps : forall n T k s s', inv n T s -> rsteps k s s' -> inv n T s' /\ (k + measure s' <= measure s)%nat.
Proof.
  intros n T k s s' I H. induction H as [s|k s s1 s2 S1 H IH]; [split; auto; lia|].
  destruct (IH (inv_step _ _ _ _ I S1)) as [I2 M]. split; auto. pose proof (measure_step _ _ _ _ I S1). lia.
Qed.
Lemma simC_steps : forall n T k s s' i, inv n T s -> rsteps k s s' -> (i < n)%nat -> simCG (rprog s') (rgroups s') i = simCG (rprog s) (rgroups s) i.
Proof.
  intros n T k s s' i I H Hi. induction H as [s|k s s1 s2 S1 H IH]; auto. rewrite (IH (inv_step _ _ _ _ I S1)).
  apply simC_step; auto; [now rewrite (i_len _ _ _ I)|].
  intros g E. destruct (lt_dec g n) as [G|G]; [now apply (wait_pending n T s g I)|].
  unfold rg. rewrite nth_overflow; auto. rewrite (i_len _ _ _ I). lia.
Qed.
