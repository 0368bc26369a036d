(** C43, C44, C45, C70: manager and process groups. *)
From Verif Require Import Base ManagerModel.
From Coq Require Import Relations Permutation.
Open Scope Z_scope.
Ltac Zify.zify_post_hook ::= idtac.

(** ** The order of waiting and signals, checked along the program of the manager *)
(** [K]: groups that are known to wait; [hold]: the manager holds a removed task; [L]: the tasks assigned so far. *)
Definition goodMoves (n : nat) (L : list task) (moves : list (list Z * nat)) : Prop :=
  Forall (fun m => (snd m < n)%nat /\ In (fst m) (map tlevel L)) moves /\ NoDup (map fst moves).
Definition minus (g : nat) (K : nat -> bool) : nat -> bool := fun i => negb (i =? g)%nat && K i.
(** The removals ahead. *)
Definition removals (p : list instr) : list (nat * list Z) := flat_map (fun x => match x with IRemoveSend g lv => [(g, lv)] | _ => [] end) p.
Fixpoint chk (n : nat) (K : nat -> bool) (hold : bool) (L : list task) (p : list instr) : Prop :=
  match p with
  | [] => hold = false
  | IAssign t :: p' => hold = false /\ chk n (fun _ => false) hold (L ++ [t]) p'
  | IWait g :: p' => (g < n)%nat /\ chk n (fun i => (i =? g)%nat || K i) hold L p'
  | ISignal g true :: p' => (g < n)%nat /\ K g = true /\ chk n (minus g K) hold L p'
  | ISignal g false :: p' => False
  | ISignalIfTasks g :: p' => (g < n)%nat /\ K g = true /\ chk n (minus g K) hold L p'
  | IResched moves :: p' => hold = false /\ (forall i, (i < n)%nat -> K i = true) /\ goodMoves n L moves /\ removals p' = [] /\ chk n (fun i => (i <? n)%nat) false L p'
  | IRemoveSend g _ :: p' => hold = false /\ (g < n)%nat /\ K g = true /\ chk n (minus g K) true L p'
  | IRemoveRecv _ _ :: _ => False
  | IAdd g :: p' => hold = true /\ (g < n)%nat /\ K g = true /\ chk n (minus g K) false L p'
  | ICollect :: p' => hold = false /\ chk n K hold L p'
  end.
Definition headRecv (p : list instr) : option (nat * list Z) := match p with IRemoveRecv g lv :: _ => Some (g, lv) | _ => None end.
Definition chkTop (n : nat) (K : nat -> bool) (hold : bool) (L : list task) (p : list instr) : Prop :=
  match p with IRemoveRecv g t :: p' => hold = false /\ (g < n)%nat /\ chk n (minus g K) true L p' | _ => chk n K hold L p end.

Lemma chk_mono : forall n p K1 K2 hold L, (forall i, (i < n)%nat -> K1 i = true -> K2 i = true) -> chk n K1 hold L p -> chk n K2 hold L p.
Proof.
  intros n. induction p as [|x p IH]; intros K1 K2 hold L H; cbn [chk]; auto.
  assert (M : forall g i, (i < n)%nat -> minus g K1 i = true -> minus g K2 i = true).
  { intros g i Hi. unfold minus. rewrite !andb_true_iff. intros [A B]. auto. }
  destruct x as [t|g|g b|g|moves|g lv|g t|g|]; try tauto.
  - intros [A B]. split; auto. eapply IH; [|exact B]. intros i Hi. cbn. rewrite !orb_true_iff. intros [C|C]; auto.
  - destruct b; [|tauto]. intros (A & B & C). repeat split; auto. eapply IH; [|exact C]. auto.
  - intros (A & B & C). repeat split; auto. eapply IH; [|exact C]. auto.
  - intros (A & B & C). auto.
  - intros (A & B & C & D). repeat split; auto. eapply IH; [|exact D]. auto.
  - intros (A & B & C & D). repeat split; auto. eapply IH; [|exact D]. auto.
  - intros (A & B). split; auto. eapply IH; [|exact B]. auto.
Qed.
Lemma chk_waits : forall n l K hold L p, Forall (fun g => (g < n)%nat) l -> chk n (fun i => existsb (Nat.eqb i) l || K i) hold L p -> chk n K hold L (map IWait l ++ p).
Proof.
  intros n. induction l as [|g l IH]; intros K hold L p HL H; [exact H|]. inversion HL; subst. cbn [map app chk]. split; auto. apply IH; auto. eapply chk_mono; [|exact H].
  intros i Hi. cbn [existsb]. rewrite !orb_true_iff. tauto.
Qed.
Lemma chk_waitAll : forall n K hold L p, chk n (fun i => (i <? n)%nat) hold L p -> chk n K hold L (waitAll n ++ p).
Proof.
  intros n K hold L p H. apply chk_waits; [apply Forall_forall; intros x Hx; apply in_seq in Hx; lia|]. eapply chk_mono; [|exact H]. intros i Hi _.
  apply orb_true_iff. left. apply existsb_exists. exists i. split; [apply in_seq; lia|apply Nat.eqb_refl].
Qed.
Lemma chk_signals : forall n (f : nat -> instr), (forall g K hold L p, (g < n)%nat -> K g = true -> chk n (minus g K) hold L p -> chk n K hold L (f g :: p)) ->
  forall l K hold L p, Forall (fun g => (g < n)%nat) l -> NoDup l -> (forall g, In g l -> K g = true) ->
  chk n (fun i => negb (existsb (Nat.eqb i) l) && K i) hold L p -> chk n K hold L (map f l ++ p).
Proof.
  intros n f Hf. induction l as [|g l IH]; intros K hold L p HL ND HK H; [eapply chk_mono; [|exact H]; intros i Hi; apply andb_true_iff|].
  inversion HL; inversion ND; subst. cbn [map app]. apply Hf; [assumption|apply HK; now left|]. apply IH; auto.
  - intros i Hi. unfold minus. apply andb_true_iff. split; [|apply HK; now right]. apply negb_true_iff, Nat.eqb_neq. intros ->. contradiction.
  - eapply chk_mono; [|exact H]. intros i Hi. cbn [existsb]. unfold minus. rewrite !andb_true_iff, negb_orb, !andb_true_iff. tauto.
Qed.
Lemma chk_signal1 : forall n g K hold L p, (g < n)%nat -> K g = true -> chk n (minus g K) hold L p -> chk n K hold L (ISignal g true :: p).
Proof. intros. cbn [chk]. auto. Qed.
Lemma chk_signal2 : forall n g K hold L p, (g < n)%nat -> K g = true -> chk n (minus g K) hold L p -> chk n K hold L (ISignalIfTasks g :: p).
Proof. intros. cbn [chk]. auto. Qed.
Lemma seq_lt : forall n m, (m <= n)%nat -> Forall (fun g => (g < n)%nat) (seq 0 m).
Proof. intros n m H. apply Forall_forall. intros x Hx. apply in_seq in Hx. lia. Qed.
Lemma chk_any : forall n K hold L p, chk n (fun _ => false) hold L p -> chk n K hold L p.
Proof. intros n K hold L p H. eapply chk_mono; [|exact H]. discriminate. Qed.
Lemma chk_signalAll : forall n hold L p, chk n (fun _ => false) hold L p -> chk n (fun i => (i <? n)%nat) hold L (signalAll n ++ p).
Proof.
  intros n hold L p H. apply chk_signals; [apply chk_signal1|now apply seq_lt|apply seq_NoDup| |now apply chk_any].
  intros g Hg. apply in_seq in Hg. apply Nat.ltb_lt. lia.
Qed.

(** Sequences of calls: doDiagnostics is not used, and reschedule, interpolateValues and the like do not follow a call that leaves groups
    busy (interpolateValues and the like, exit). [settled]: the preceding call has waited for all groups. Moves name known levels, each
    once, and existing groups; [L]: the tasks assigned so far. *)
Fixpoint orderly (n : nat) (settled : bool) (L : list task) (calls : list call) : Prop :=
  match calls with
  | [] => True
  | c :: cs => match c with
               | CDiagnostics _ => False
               | CEval g | CThirdLevel g => (g < n)%nat /\ orderly n true L cs
               | CReschedule moves => settled = true /\ goodMoves n L moves /\ orderly n true L cs
               | CInterpolate | CMinMax => settled = true /\ orderly n false L cs
               | CExit => orderly n false L cs
               | CRunfirst ts | CRedistribute ts => orderly n true (L ++ ts) cs
               | CRunnext | CAll => orderly n true L cs
               end
  end.
Lemma removals_app : forall p q, removals (p ++ q) = removals p ++ removals q.
Proof. intros. unfold removals. apply flat_map_app. Qed.
Lemma removals_map : forall (f : nat -> instr) l, (forall g, match f g with IRemoveSend _ _ => False | _ => True end) -> removals (map f l) = [].
Proof. intros f l H. induction l as [|x l IH]; auto. cbn [map removals flat_map]. unfold removals in IH. rewrite IH. specialize (H x). destruct (f x); auto. contradiction. Qed.
Lemma removals_compile : forall n calls, removals (flat_map (compile n) calls) = [].
Proof.
  intros n. assert (M : forall (f : nat -> instr) l, (forall g, match f g with IRemoveSend _ _ => False | _ => True end) -> removals (map f l) = []) by apply removals_map.
  assert (T : forall ts, removals (map IAssign ts) = []) by (induction ts; auto).
  induction calls as [|c cs IH]; auto. cbn [flat_map]. rewrite removals_app, IH, app_nil_r.
  destruct c; cbn [compile]; unfold waitAll, signalAll; rewrite ?removals_app, ?T, ?M; auto; try (intros; exact I); cbn; try (apply M; intros; exact I).
Qed.
Lemma chk_assigns : forall n ts K L p, chk n (fun _ => false) false (L ++ ts) p -> chk n K false L (map IAssign ts ++ p).
Proof.
  intros n. induction ts as [|t ts IH]; intros K L p H; [rewrite app_nil_r in H; now apply chk_any|]. cbn [map app chk]. split; auto. apply IH. now rewrite <- app_assoc.
Qed.
Lemma orderly_chk : forall n calls settled L, (0 < n)%nat -> orderly n settled L calls -> chk n (fun i => settled && (i <? n)%nat) false L (flat_map (compile n) calls).
Proof.
  intros n calls settled L Hn. revert settled L. assert (LT : forall i, (i < n)%nat -> (i <? n)%nat = true) by (intros i Hi; now apply Nat.ltb_lt).
  induction calls as [|c cs IH]; intros settled L H; [reflexivity|]. cbn [flat_map]. cbn [orderly] in H.
  assert (I1 : forall L, orderly n true L cs -> chk n (fun i => (i <? n)%nat) false L (flat_map (compile n) cs)) by (intros L' H1; exact (IH true L' H1)).
  assert (I0 : forall L, orderly n false L cs -> chk n (fun _ => false) false L (flat_map (compile n) cs)) by (intros L' H1; exact (IH false L' H1)).
  destruct c as [ts| | |g|g|moves|ts| | |g|]; cbn [compile]; rewrite <- ?app_assoc; try tauto.
  - apply chk_assigns. now apply chk_waitAll, chk_waitAll, chk_signalAll, chk_waitAll, I1.
  - apply chk_waitAll. apply chk_signals; [apply chk_signal2|now apply seq_lt|apply seq_NoDup| |now apply chk_any, chk_waitAll, I1].
    intros g Hg. apply in_seq in Hg. apply LT. lia.
  - now apply chk_waitAll, chk_signalAll, chk_waitAll, I1.
  - destruct H as [Hg H]. apply chk_waitAll. cbn [app]. apply chk_signal1; auto. now apply chk_waitAll, I1.
  - destruct H as [Hg H]. apply chk_waitAll, chk_signalAll, chk_waitAll. apply chk_signals; [apply chk_signal1| | | |].
    + apply Forall_forall. intros i Hi. apply filter_In in Hi. destruct Hi as [Hi _]. apply in_seq in Hi. lia.
    + apply NoDup_filter, seq_NoDup.
    + intros i Hi. apply filter_In in Hi. destruct Hi as [Hi _]. apply in_seq in Hi. apply LT. lia.
    + cbn [app]. apply chk_signal1; [exact Hg| |now apply chk_waitAll, I1]. apply andb_true_iff. split; [|auto]. apply negb_true_iff.
      destruct (existsb (Nat.eqb g) (filter (fun i => negb (i =? g)%nat) (seq 0 n))) eqn:E; auto. apply existsb_exists in E. destruct E as (i & Hi & E). apply Nat.eqb_eq in E. subst i.
      apply filter_In in Hi. destruct Hi as [_ Hi]. rewrite Nat.eqb_refl in Hi. discriminate.
  - destruct H as (-> & HM & H). cbn [app chk]. repeat split; auto; try apply HM. apply removals_compile.
  - apply chk_assigns. now apply chk_waitAll, I1.
  - destruct H as (-> & H). cbn [app]. apply chk_signal1; [lia|cbn; apply LT; lia|]. apply chk_signals; [apply chk_signal1|apply seq_lt; lia|apply seq_NoDup| |now apply chk_any, I0].
    intros i Hi. apply in_seq in Hi. unfold minus. apply andb_true_iff. split; [apply negb_true_iff, Nat.eqb_neq; lia|cbn; apply LT; lia].
  - destruct H as (-> & H). cbn [app]. apply chk_signal1; [lia|cbn; apply LT; lia|]. now apply chk_any, I0.
  - now apply chk_waitAll, chk_signalAll, I0.
Qed.
Lemma chk_expand : forall n gs moves L p, Forall (fun m => (snd m < n)%nat /\ (groupOfLevel gs (fst m) < n)%nat) moves -> chk n (fun i => (i <? n)%nat) false L p ->
  chk n (fun i => (i <? n)%nat) false L (expand n gs moves ++ p).
Proof.
  intros n gs moves L p HM H. unfold expand. rewrite <- app_assoc. revert HM. induction moves as [|[lv to] moves IH]; intros HM; [cbn; auto|]. inversion HM as [|x l [H1 H2] H3]; subst.
  cbn [flat_map]. unfold expandMove at 1. cbn [fst snd] in *. rewrite <- !app_assoc. cbn [app chk]. repeat split; auto; [now apply Nat.ltb_lt|]. apply chk_waitAll. cbn [chk]. repeat split; auto.
  - now apply Nat.ltb_lt.
  - apply chk_waitAll. now apply IH.
Qed.

(** ** What holds in every reachable state *)
(** Nothing is going on: nothing on the way, no request, the lists agree, every signal is answered. *)
Definition idle (g : group) : Prop :=
  queue g = [] /\ working g = false /\ statuses g = 0%nat /\ posted g = 0%nat /\ back g = [] /\ wtasks g = mtasks g /\ nsent g = nreceived g.
Definition inWork (g : group) : Prop := (working g = true /\ statuses g = 0%nat) \/ (working g = false /\ statuses g = 1%nat).
(** One signal is being worked on and one request waits for its status. *)
Definition busy (g : group) : Prop :=
  posted g = 1%nat /\ back g = [] /\ nsent g = S (nreceived g) /\
  ((exists x, queue g = [x] /\ working g = false /\ statuses g = 0%nat /\ mtasks g = applySig x (wtasks g) /\ sentBack x (wtasks g) = []) \/
   (queue g = [] /\ wtasks g = mtasks g /\ inWork g)).
Definition okGroup (g : group) : Prop := if waiting g then idle g else busy g.
(** Between the two parts of rescheduleRemoveTask. *)
Definition removing (lv : list Z) (g : group) : Prop :=
  waiting g = true /\ posted g = 0%nat /\ nsent g = S (nreceived g) /\ exists t, find (hasLevel lv) (mtasks g) = Some t /\
  ((queue g = [SRemove (tid t)] /\ working g = false /\ statuses g = 0%nat /\ back g = [] /\ wtasks g = mtasks g) \/
   (queue g = [] /\ back g = [t] /\ wtasks g = removeId (tid t) (mtasks g) /\ inWork g)).

Definition heldList (s : state) : list task := match held s with Some t => [t] | None => [] end.
Definition isHeld (s : state) : bool := match held s with Some _ => true | None => false end.
Definition allHeld (s : state) : list task := concat (map mtasks (groups s)) ++ heldList s.
(** The assignments ahead. *)
Definition assigned (p : list instr) : list task := flat_map (fun x => match x with IAssign t => [t] | _ => [] end) p.
Fixpoint lastCollects (p : list instr) : bool :=
  match p with [] => false | [ICollect] => true | [IResched _] => true | _ :: p' => lastCollects p' end.

(** [A]: all tasks that are assigned during the run; [E]: the run ends with reschedule. *)
Definition inv (n : nat) (A : list task) (E : bool) (s : state) : Prop :=
  length (groups s) = n /\
  (exists K L, chkTop n K (isHeld s) L (prog s) /\ (forall i, (i < n)%nat -> K i = true -> waiting (gr s i) = true) /\
     Permutation (allHeld s) L /\ L ++ assigned (prog s) = A /\
     (E = true -> lastCollects (prog s) = true \/ (prog s = [] /\ Permutation (allTasks s) L))) /\
  (match headRecv (prog s) with
   | Some (g, lv) => removing lv (gr s g) /\ (forall i, (i < n)%nat -> i <> g -> okGroup (gr s i)) /\ Forall (fun r => snd r <> lv) (removals (prog s))
   | None => forall i, (i < n)%nat -> okGroup (gr s i)
   end) /\
  NoDup (map snd (removals (prog s))) /\ Forall (fun r => In (snd r) (map tlevel (mtasks (gr s (fst r))))) (removals (prog s)) /\
  NoDup (map tid A).

Lemma gr_upd_same : forall s p g x h a, (g < length (groups s))%nat -> gr (State p (upd (groups s) g x) h a) g = x.
Proof. intros. unfold gr. cbn [groups]. now apply nth_upd_same. Qed.
Lemma gr_upd_other : forall s p g x h a i, i <> g -> gr (State p (upd (groups s) g x) h a) i = gr s i.
Proof. intros. unfold gr. cbn [groups]. apply nth_upd_other. congruence. Qed.
(** Exchanging the list of one group. *)
Lemma concat_upd : forall gs g x, (g < length gs)%nat ->
  exists l, Permutation (concat (map mtasks gs)) (mtasks (nth g gs newGroup) ++ l) /\ Permutation (concat (map mtasks (upd gs g x))) (mtasks x ++ l).
Proof.
  induction gs as [|y gs IH]; intros [|g] x H; cbn [length] in H; try lia.
  - exists (concat (map mtasks gs)). split; reflexivity.
  - destruct (IH g x ltac:(lia)) as (l & P1 & P2). exists (mtasks y ++ l). cbn [upd map concat nth]. split.
    + rewrite P1. apply Permutation_app_swap_app.
    + rewrite P2. apply Permutation_app_swap_app.
Qed.
Lemma same_upd : forall gs g x, (g < length gs)%nat -> mtasks x = mtasks (nth g gs newGroup) -> concat (map mtasks (upd gs g x)) = concat (map mtasks gs).
Proof.
  intros gs g x H E. f_equal. revert g H E. induction gs as [|y gs IH]; intros [|g] H E; cbn [length] in H; try lia; cbn [upd map nth] in *; [congruence|]. now rewrite IH by (auto; lia).
Qed.
Lemma find_level : forall lv l t, find (hasLevel lv) l = Some t -> Permutation l (t :: removeLevel lv l) /\ In t l /\ tlevel t = lv.
Proof.
  intros lv. induction l as [|x l IH]; intros t H; [discriminate|]. cbn [find removeLevel] in *. destruct (hasLevel lv x) eqn:E.
  - injection H as ->. split; [reflexivity|]. split; [now left|]. unfold hasLevel in E. destruct (level_eq_dec (tlevel t) lv); congruence.
  - destruct (IH t H) as (P & I & T). split; [rewrite P at 1; apply perm_swap|]. split; [now right|exact T].
Qed.
Lemma remove_same : forall lv l t, NoDup (map tid l) -> find (hasLevel lv) l = Some t -> find (fun x => tid x =? tid t) l = Some t /\ removeId (tid t) l = removeLevel lv l.
Proof.
  intros lv. induction l as [|x l IH]; intros t ND H; [discriminate|]. cbn [find removeLevel removeId map] in *. inversion ND as [|y ys N1 N2]; subst. destruct (hasLevel lv x) eqn:E.
  - injection H as ->. now rewrite Z.eqb_refl.
  - destruct (IH t N2 H) as [F R]. assert (NE : (tid x =? tid t) = false).
    { apply Z.eqb_neq. intros C. apply N1. rewrite C. apply in_map. now apply find_level in H. }
    rewrite NE. split; auto. now rewrite R.
Qed.
Lemma level_kept : forall lv lv' l, lv' <> lv -> In lv' (map tlevel l) -> In lv' (map tlevel (removeLevel lv l)).
Proof.
  intros lv lv' l NE. induction l as [|x l IH]; intros H; [exact H|]. cbn [map removeLevel] in *. destruct (hasLevel lv x) eqn:E.
  - destruct H as [H|H]; auto. unfold hasLevel in E. destruct (level_eq_dec (tlevel x) lv); congruence.
  - destruct H as [H|H]; [now left|right; auto].
Qed.
Lemma NoDup_app_l : forall (A : Type) (a b : list A), NoDup (a ++ b) -> NoDup a.
Proof. intros A a b. induction a as [|x a IH]; intros H; [constructor|]. inversion H; subst. constructor; auto. intros C. apply H2. apply in_or_app. now left. Qed.
Lemma mtasks_NoDup : forall n A E s g, inv n A E s -> (g < n)%nat -> NoDup (map tid (mtasks (gr s g))).
Proof.
  intros n A E s g (HL & (K & L & _ & _ & P & HA & _) & _ & _ & _ & ND) Hg. subst A. rewrite map_app in ND. apply NoDup_app_l in ND.
  apply (Permutation_NoDup (Permutation_map tid (Permutation_sym P))) in ND. unfold allHeld in ND. rewrite map_app in ND. apply NoDup_app_l in ND.
  destruct (concat_upd (groups s) g newGroup ltac:(lia)) as (l & P1 & _). apply (Permutation_NoDup (Permutation_map tid P1)) in ND. rewrite map_app in ND. now apply NoDup_app_l in ND.
Qed.
Lemma lastCollects_cons : forall x p, p <> [] -> lastCollects (x :: p) = lastCollects p.
Proof. intros x p H. destruct p as [|y p]; [congruence|]. destruct x; reflexivity. Qed.
Lemma lastCollects_app : forall q p, p <> [] -> lastCollects (q ++ p) = lastCollects p.
Proof. induction q as [|x q IH]; intros p H; auto. cbn [app]. rewrite lastCollects_cons; auto. destruct q; cbn; [auto|discriminate]. Qed.

Lemma chk_head : forall n K h L p, chk n K h L p -> headRecv p = None.
Proof. intros n K h L p H. destruct p as [|[]]; auto. contradiction. Qed.
Lemma chk_top : forall n K h L p, chk n K h L p -> chkTop n K h L p.
Proof. intros n K h L p H. destruct p as [|[]]; auto. contradiction. Qed.
Lemma chkTop_chk : forall n K h L p, headRecv p = None -> chkTop n K h L p -> chk n K h L p.
Proof. intros n K h L p E H. destruct p as [|[]]; auto; discriminate. Qed.

(** A step of a group, or a delivery. *)
Lemma inv_group : forall n A E s g x, inv n A E s -> (g < n)%nat -> mtasks x = mtasks (gr s g) -> (waiting (gr s g) = true -> waiting x = true) ->
  (okGroup (gr s g) -> okGroup x) -> (forall lv, removing lv (gr s g) -> removing lv x) -> inv n A E (withGroup s (prog s) g x).
Proof.
  intros n A E s g x (HL & (K & L & CK & HK & P & HA & HE) & HG & ND & HR & NT) Hg EM HW HO HRM. unfold withGroup. repeat split; auto.
  - cbn [groups]. now rewrite upd_length.
  - exists K, L. cbn [prog held allTasks]. split; [exact CK|]. split; [|split; [|split; auto]].
    + intros i Hi Ki. destruct (Nat.eq_dec i g) as [->|NE]; [rewrite gr_upd_same by lia; auto|rewrite gr_upd_other by auto; auto].
    + unfold allHeld, heldList. cbn [groups held]. rewrite same_upd; auto. lia.
  - cbn [prog]. destruct (headRecv (prog s)) as [[g' lv]|].
    + destruct HG as (R & O & F). split; [|split; auto].
      * destruct (Nat.eq_dec g' g) as [->|NE]; [rewrite gr_upd_same by lia; auto|rewrite gr_upd_other by auto; auto].
      * intros i Hi NI. destruct (Nat.eq_dec i g) as [->|NE]; [rewrite gr_upd_same by lia; auto|rewrite gr_upd_other by auto; auto].
    + intros i Hi. destruct (Nat.eq_dec i g) as [->|NE]; [rewrite gr_upd_same by lia; auto|rewrite gr_upd_other by auto; auto].
  - cbn [prog]. eapply Forall_impl; [|exact HR]. intros [i lv] H. cbn [fst snd] in *. destruct (Nat.eq_dec i g) as [->|NE]; [rewrite gr_upd_same by lia; now rewrite EM|now rewrite gr_upd_other].
Qed.
(** A step of the manager that changes at most the group [g]. *)
Lemma inv_manager : forall n A E s p g x h a K L, inv n A E s -> headRecv (prog s) = None -> (g < n)%nat ->
  chk n K (isHeld (State p (upd (groups s) g x) h a)) L p -> (forall i, (i < n)%nat -> i <> g -> K i = true -> waiting (gr s i) = true) -> (K g = true -> waiting x = true) ->
  Permutation (allHeld (State p (upd (groups s) g x) h a)) L -> L ++ assigned p = A -> (E = true -> lastCollects p = true \/ (p = [] /\ Permutation a L)) ->
  okGroup x -> NoDup (map snd (removals p)) -> Forall (fun r => In (snd r) (map tlevel (mtasks (gr s (fst r))))) (removals p) -> incl (mtasks (gr s g)) (mtasks x) ->
  inv n A E (State p (upd (groups s) g x) h a).
Proof.
  intros n A E s p g x h a K L (HL & _ & HG & _ & _ & NT) HN Hg CK HK1 HK2 P HA HE HX ND HR HI. rewrite HN in HG. repeat split; auto.
  - cbn [groups]. now rewrite upd_length.
  - exists K, L. split; [now apply chk_top|]. split; [|split; [exact P|split; [exact HA|exact HE]]]. intros i Hi Ki.
    destruct (Nat.eq_dec i g) as [->|NE]; [rewrite gr_upd_same by lia; auto|rewrite gr_upd_other by auto; auto].
  - cbn [prog]. rewrite (chk_head _ _ _ _ _ CK). intros i Hi. destruct (Nat.eq_dec i g) as [->|NE]; [rewrite gr_upd_same by lia; auto|rewrite gr_upd_other by auto; auto].
  - cbn [prog]. eapply Forall_impl; [|exact HR]. intros [i lv] H. cbn [fst snd] in *. destruct (Nat.eq_dec i g) as [->|NE]; [|now rewrite gr_upd_other].
    rewrite gr_upd_same by lia. apply in_map_iff in H. destruct H as (t & E1 & Ht). apply in_map_iff. exists t. auto.
Qed.
Lemma upd_same : forall (A : Type) (l : list A) i d, upd l i (nth i l d) = l.
Proof. intros A. induction l as [|x l IH]; intros [|i] d; cbn; auto. now rewrite IH. Qed.
Lemma lastCollects_tl : forall x p, match x with ICollect | IResched _ => False | _ => True end -> lastCollects (x :: p) = true -> lastCollects p = true.
Proof. intros x p H E. destruct p as [|y p]; [destruct x; cbn in *; try contradiction; discriminate|]. rewrite lastCollects_cons in E; [exact E|discriminate]. Qed.
Lemma groupOfLevel_In : forall gs lv, In lv (map tlevel (concat (map mtasks gs))) -> (groupOfLevel gs lv < length gs)%nat /\ In lv (map tlevel (mtasks (nth (groupOfLevel gs lv) gs newGroup))).
Proof.
  intros gs lv H. unfold groupOfLevel. set (f := fun i => existsb (hasLevel lv) (mtasks (nth i gs newGroup))). destruct (find f (seq 0 (length gs))) as [i|] eqn:E.
  - apply find_some in E. destruct E as [Hi E]. apply in_seq in Hi. split; [lia|]. unfold f in E. apply existsb_exists in E. destruct E as (t & Ht & E). unfold hasLevel in E.
    destruct (level_eq_dec (tlevel t) lv) as [<-|]; [|discriminate]. now apply in_map.
  - exfalso. apply in_map_iff in H. destruct H as (t & <- & Ht). apply in_concat in Ht. destruct Ht as (l & Hl & Ht). apply in_map_iff in Hl. destruct Hl as (g & <- & Hg).
    apply In_nth with (d := newGroup) in Hg. destruct Hg as (i & Hi & Eg). pose proof (find_none _ _ E i ltac:(apply in_seq; lia)) as F. unfold f in F. rewrite Eg in F.
    assert (existsb (hasLevel (tlevel t)) (mtasks g) = true); [|congruence]. apply existsb_exists. exists t. split; auto. unfold hasLevel. destruct (level_eq_dec (tlevel t) (tlevel t)); congruence.
Qed.
Lemma assigned_app : forall p q, assigned (p ++ q) = assigned p ++ assigned q.
Proof. intros. unfold assigned. apply flat_map_app. Qed.
Lemma assigned_map : forall (f : nat -> instr) l, (forall g, match f g with IAssign _ => False | _ => True end) -> assigned (map f l) = [].
Proof. intros f l H. induction l as [|x l IH]; auto. cbn [map assigned flat_map]. unfold assigned in IH. rewrite IH. specialize (H x). destruct (f x); auto. contradiction. Qed.
Lemma removals_expand : forall n gs moves, removals (expand n gs moves) = map (fun m => (groupOfLevel gs (fst m), fst m)) moves.
Proof.
  intros n gs moves. unfold expand. rewrite removals_app. replace (removals [ICollect]) with (@nil (nat * list Z)) by reflexivity. rewrite app_nil_r. induction moves as [|m moves IH]; auto.
  cbn [flat_map map]. rewrite removals_app, IH. unfold expandMove. rewrite !removals_app. unfold waitAll. rewrite removals_map by (intros; exact I). reflexivity.
Qed.
Lemma assigned_expand : forall n gs moves, assigned (expand n gs moves) = [].
Proof.
  intros n gs moves. unfold expand. rewrite assigned_app. replace (assigned [ICollect]) with (@nil task) by reflexivity. rewrite app_nil_r. induction moves as [|m moves IH]; auto.
  cbn [flat_map]. rewrite assigned_app, IH. unfold expandMove. rewrite !assigned_app. unfold waitAll. rewrite assigned_map by (intros; exact I). reflexivity.
Qed.

Lemma storeAndSend_ok : forall t g, okGroup g -> waiting g = true -> okGroup (storeAndSend t g).
Proof.
  intros t g O W. unfold okGroup in *. rewrite W in O. destruct O as (Q & Wk & St & Po & Ba & WT & NS). cbn. unfold busy. cbn. rewrite Po, Q, Ba, NS, WT. repeat split; auto.
  left. exists (SAdd t). cbn. repeat split; auto.
Qed.
Lemma signal_ok : forall g, okGroup g -> waiting g = true -> okGroup (busyAndReceive (sendSignal SWork g)).
Proof.
  intros g O W. unfold okGroup in *. rewrite W in O. destruct O as (Q & Wk & St & Po & Ba & WT & NS). cbn. unfold busy. cbn. rewrite Po, Q, Ba, NS, WT. repeat split; auto.
  left. exists SWork. cbn. repeat split; auto.
Qed.
Lemma In_level_perm : forall lv (a b : list task), Permutation a b -> In lv (map tlevel b) -> In lv (map tlevel a).
Proof. intros lv a b P H. eapply Permutation_in; [apply Permutation_map, Permutation_sym, P|exact H]. Qed.

Lemma inv_step : forall n A E s t, inv n A E s -> step s t -> inv n A E t.
Proof.
  intros n A E s t HI HS. pose proof HI as (HL & (K & L & CK & HK & P & HA & HE) & HG & ND & HR & NT).
  destruct HS as [s t p g EP Hg W|s g p EP Hg W|s g p EP Hg|s g p EP Hg|s g p EP Hg HT|s g p EP Hg HT|s moves p EP|s g lv p t EP Hg FT|s g lv p r b EP Hg EB|s g p t EP Hg EH W|s g p t EP Hg EH W|s p EP
    |s g x q Hg EQ EW|s g Hg EW|s g p st Hg EPo ES].
  1-12: rewrite EP in *; cbn [chkTop headRecv] in CK, HG; cbn [chk] in CK.
  - (* assign *) destruct CK as [HH CK]. unfold withGroup. eapply inv_manager with (K := fun _ => false) (L := L ++ [t]); eauto; try discriminate; try lia.
    + now rewrite EP.
    + unfold allHeld, heldList in *. cbn [groups held]. unfold isHeld in HH. destruct (held s); [discriminate|]. rewrite app_nil_r in *.
      destruct (concat_upd (groups s) g (storeAndSend t (gr s g)) Hg) as (l & P1 & P2). rewrite P2. cbn [mtasks storeAndSend busyAndReceive sendSignal setTasks]. fold (gr s g) in P1.
      rewrite <- P, P1, <- !app_assoc. apply Permutation_app_head, Permutation_app_comm.
    + rewrite <- HA, <- app_assoc. reflexivity.
    + intros HE1. destruct (HE HE1) as [C|[C _]]; [|discriminate]. left. eapply lastCollects_tl; [|exact C]. exact I.
    + apply storeAndSend_ok; auto. apply HG. lia.
    + cbn [mtasks storeAndSend busyAndReceive sendSignal setTasks]. apply incl_appl, incl_refl.
  - (* wait *) destruct CK as [Hg' CK]. rewrite <- (upd_same _ (groups s) g newGroup). eapply inv_manager with (K := fun i => (i =? g)%nat || K i) (L := L); eauto.
    + now rewrite EP.
    + intros i Hi NE Ki. apply orb_true_iff in Ki. destruct Ki as [Ki|Ki]; [apply Nat.eqb_eq in Ki; congruence|auto].
    + unfold allHeld in *. cbn [groups]. rewrite upd_same. exact P.
    + intros HE1. destruct (HE HE1) as [C|[C _]]; [|discriminate]. left. eapply lastCollects_tl; [|exact C]. exact I.
    + apply incl_refl.
  - (* signal *) destruct CK as (Hg' & KG & CK). unfold withGroup. eapply inv_manager with (K := minus g K) (L := L); eauto.
    + now rewrite EP.
    + intros i Hi NE Ki. apply andb_true_iff in Ki. destruct Ki; auto.
    + unfold minus. rewrite Nat.eqb_refl. discriminate.
    + unfold allHeld, heldList in *. cbn [groups held]. rewrite same_upd; auto.
    + intros HE1. destruct (HE HE1) as [C|[C _]]; [|discriminate]. left. eapply lastCollects_tl; [|exact C]. exact I.
    + apply signal_ok; auto.
    + apply incl_refl.
  - contradiction.
  - (* signal if tasks *) destruct CK as (Hg' & KG & CK). unfold withGroup. eapply inv_manager with (K := minus g K) (L := L); eauto.
    + now rewrite EP.
    + intros i Hi NE Ki. apply andb_true_iff in Ki. destruct Ki; auto.
    + unfold minus. rewrite Nat.eqb_refl. discriminate.
    + unfold allHeld, heldList in *. cbn [groups held]. rewrite same_upd; auto.
    + intros HE1. destruct (HE HE1) as [C|[C _]]; [|discriminate]. left. eapply lastCollects_tl; [|exact C]. exact I.
    + apply signal_ok; auto.
    + apply incl_refl.
  - (* no tasks *) destruct CK as (Hg' & KG & CK). rewrite <- (upd_same _ (groups s) g newGroup). eapply inv_manager with (K := minus g K) (L := L); eauto.
    + now rewrite EP.
    + intros i Hi NE Ki. apply andb_true_iff in Ki. destruct Ki; auto.
    + unfold allHeld in *. cbn [groups]. rewrite upd_same. exact P.
    + intros HE1. destruct (HE HE1) as [C|[C _]]; [|discriminate]. left. eapply lastCollects_tl; [|exact C]. exact I.
    + apply incl_refl.
  - (* reschedule *) destruct CK as (HH & KA & [GM NM] & RP & CK). unfold isHeld in HH. destruct (held s) as [|] eqn:EH; [discriminate|].
    assert (PA : Permutation (concat (map mtasks (groups s))) L) by (unfold allHeld, heldList in P; rewrite EH, app_nil_r in P; exact P).
    assert (GL : Forall (fun m => (snd m < n)%nat /\ (groupOfLevel (groups s) (fst m) < n)%nat /\ In (fst m) (map tlevel (mtasks (gr s (groupOfLevel (groups s) (fst m)))))) moves).
    { eapply Forall_impl; [|exact GM]. intros [lv to] [H1 H2]. cbn [fst snd] in *. destruct (groupOfLevel_In (groups s) lv) as [G1 G2]; [now apply (In_level_perm lv _ L)|]. rewrite HL in G1. auto. }
    assert (CK' : chk n (fun i => (i <? n)%nat) false L (expand (length (groups s)) (groups s) moves ++ p)).
    { rewrite HL. apply chk_expand; auto. eapply Forall_impl; [|exact GL]. cbn. tauto. }
    assert (RM : removals (expand (length (groups s)) (groups s) moves ++ p) = map (fun m => (groupOfLevel (groups s) (fst m), fst m)) moves) by (rewrite removals_app, RP, app_nil_r; apply removals_expand).
    split; [exact HL|]. split; [|split; [|split; [|split; [|exact NT]]]]; cbn [prog].
    + exists (fun i => (i <? n)%nat), L. unfold isHeld, allHeld, heldList. cbn [prog held allTasks groups]. split; [now apply chk_top|]. split; [intros i Hi _; apply HK; auto|]. rewrite app_nil_r. split; [exact PA|].
      split; [rewrite assigned_app, assigned_expand; exact HA|]. intros HE1. left. destruct (HE HE1) as [C|[C _]]; [|discriminate]. destruct p as [|y p].
      * rewrite app_nil_r. unfold expand. rewrite lastCollects_app by discriminate. reflexivity.
      * rewrite lastCollects_app by discriminate. rewrite lastCollects_cons in C by discriminate. exact C.
    + rewrite (chk_head _ _ _ _ _ CK'). exact HG.
    + rewrite RM, map_map. cbn [snd]. exact NM.
    + rewrite RM. apply Forall_map. eapply Forall_impl; [|exact GL]. intros m H. cbn [fst snd]. apply H.
  - (* remove: send *) destruct CK as (HH & Hg' & KG & CK). unfold withGroup. pose proof (HG g Hg') as OG. unfold okGroup in OG. rewrite (HK g Hg' KG) in OG. destruct OG as (Q & Wk & St & Po & Ba & WT & NS).
    split; [cbn [groups]; now rewrite upd_length|]. split; [|split; [|split; [|split; [|exact NT]]]]; cbn [prog].
    + exists K, L. cbn [prog held allTasks]. unfold isHeld, allHeld, heldList in *. cbn [groups held chkTop]. split; [split; auto|]. split; [|split; [|split]].
      * intros i Hi Ki. destruct (Nat.eq_dec i g) as [->|NE]; [rewrite gr_upd_same by lia; cbn; auto|rewrite gr_upd_other by auto; auto].
      * rewrite same_upd; auto.
      * exact HA.
      * intros HE1. destruct (HE HE1) as [C|[C _]]; [|discriminate]. left. apply lastCollects_tl in C; [|exact I]. destruct p; [discriminate|]. rewrite lastCollects_cons; [exact C|discriminate].
    + cbn [headRecv]. split; [|split].
      * rewrite gr_upd_same by lia. unfold removing. cbn. split; [auto|]. split; [auto|]. split; [now rewrite NS|]. exists t. split; auto. left. rewrite Q. repeat split; auto.
      * intros i Hi NE. rewrite gr_upd_other by auto. auto.
      * cbn [removals flat_map app map snd] in ND |- *. inversion ND as [|y ys N1 N2]; subst. apply Forall_forall. intros r Hr C. apply N1. rewrite <- C. apply in_map. exact Hr.
    + cbn [removals flat_map app map snd] in ND |- *. inversion ND; auto.
    + cbn [removals flat_map app] in HR |- *. inversion HR as [|y ys R1 R2]; subst. eapply Forall_impl; [|exact R2]. intros [i lv'] H. cbn [fst snd] in *.
      destruct (Nat.eq_dec i g) as [->|NE]; [rewrite gr_upd_same by lia; exact H|now rewrite gr_upd_other].
  - (* remove: receive *) destruct CK as (HH & Hg' & CK). destruct HG as (RG & OK & FR). destruct RG as (W & Po & NS & t & FT & [(Q & Wk & St & Ba & WT)|(Q & Ba & WT & IW)]); [rewrite Ba in EB; discriminate|].
    rewrite Ba in EB. injection EB as <- <-. destruct (remove_same lv _ t (mtasks_NoDup _ _ _ _ g HI Hg') FT) as [FI RI].
    split; [cbn [groups]; now rewrite upd_length|]. split; [|split; [|split; [|split; [|exact NT]]]]; cbn [prog].
    + exists (minus g K), L. split; [apply chk_top; exact CK|]. split; [|split; [|split]].
      * intros i Hi Ki. apply andb_true_iff in Ki. destruct Ki as [K1 K2]. apply negb_true_iff, Nat.eqb_neq in K1. rewrite gr_upd_other by auto. auto.
      * unfold allHeld, heldList, isHeld in *. cbn [groups held]. destruct (held s); [discriminate|]. rewrite app_nil_r in P.
        match goal with |- Permutation (concat (map mtasks (upd _ _ ?x)) ++ _) _ => destruct (concat_upd (groups s) g x Hg) as (l & P1 & P2) end. rewrite P2. cbn [mtasks busyAndReceive setTasks takeBack].
        rewrite <- P, P1. fold (gr s g). destruct (find_level lv _ t FT) as (PF & _ & _). rewrite PF at 2. rewrite Permutation_app_comm. reflexivity.
      * exact HA.
      * intros HE1. destruct (HE HE1) as [C|[C _]]; [|discriminate]. left. eapply lastCollects_tl; [|exact C]. exact I.
    + rewrite (chk_head _ _ _ _ _ CK). intros i Hi. destruct (Nat.eq_dec i g) as [->|NE]; [|rewrite gr_upd_other by auto; auto]. rewrite gr_upd_same by lia.
      unfold okGroup, busy. cbn. rewrite Po. repeat split; auto. right. rewrite Q. repeat split; auto. now rewrite WT, RI.
    + exact ND.
    + rewrite Forall_forall in *. intros [i lv'] H. specialize (HR _ H). specialize (FR _ H). cbn [fst snd] in *. destruct (Nat.eq_dec i g) as [->|NE]; [|now rewrite gr_upd_other]. rewrite gr_upd_same by lia.
      cbn [mtasks busyAndReceive setTasks takeBack]. now apply level_kept.
  - (* add *) destruct CK as (HH & Hg' & KG & CK). eapply inv_manager with (K := minus g K) (L := L); eauto.
    + now rewrite EP.
    + intros i Hi NE Ki. apply andb_true_iff in Ki. destruct Ki; auto.
    + unfold minus. rewrite Nat.eqb_refl. discriminate.
    + unfold allHeld, heldList in *. cbn [groups held]. rewrite EH in P. rewrite app_nil_r.
      destruct (concat_upd (groups s) g (storeAndSend t (gr s g)) Hg) as (l & P1 & P2). rewrite P2. cbn [mtasks storeAndSend busyAndReceive sendSignal setTasks]. fold (gr s g) in P1.
      rewrite <- P, P1, <- !app_assoc. apply Permutation_app_head, Permutation_app_comm.
    + intros HE1. destruct (HE HE1) as [C|[C _]]; [|discriminate]. left. eapply lastCollects_tl; [|exact C]. exact I.
    + apply storeAndSend_ok; auto.
    + cbn [mtasks storeAndSend busyAndReceive sendSignal setTasks]. apply incl_appl, incl_refl.
  - (* refused *) destruct CK as (HH & Hg' & KG & CK). rewrite (HK g Hg' KG) in W. discriminate.
  - (* collect *) destruct CK as (HH & CK). split; [exact HL|]. split; [|split; [|split; [|split; [|exact NT]]]]; cbn [prog]; auto.
    + exists K, L. split; [apply chk_top; exact CK|]. split; [exact HK|]. split; [exact P|]. split; [exact HA|]. cbn [prog allTasks]. intros HE1. destruct (HE HE1) as [C|[C _]]; [|discriminate].
      destruct p as [|y p]; [right|left; rewrite lastCollects_cons in C by discriminate; exact C]. split; auto. unfold allHeld, heldList, isHeld in *. destruct (held s); [discriminate|]. rewrite app_nil_r in P. exact P.
    + rewrite (chk_head _ _ _ _ _ CK). exact HG.
  - (* a group starts *) apply inv_group; auto; try lia.
    + unfold okGroup. cbn. destruct (waiting (gr s g)); [intros (Q & _); rewrite Q in EQ; discriminate|]. intros (Po & Ba & NS & [(y & Q & Wk & St & MT & SB)|(Q & _)]); [|rewrite Q in EQ; discriminate].
      rewrite Q in EQ. injection EQ as -> <-. unfold busy. cbn. rewrite Ba, SB. repeat split; auto. right. repeat split; auto. left. auto.
    + intros lv (W & Po & NS & t & FT & [(Q & Wk & St & Ba & WT)|(Q & _)]); [|rewrite Q in EQ; discriminate]. rewrite Q in EQ. injection EQ as <- <-. unfold removing. cbn. repeat split; auto. exists t. split; auto. right.
      rewrite Ba, WT. destruct (remove_same lv _ t (mtasks_NoDup _ _ _ _ g HI ltac:(lia)) FT) as [FI RI]. rewrite FI. repeat split; auto. left. auto.
  - (* a group finishes *) apply inv_group; auto; try lia.
    + unfold okGroup. cbn. destruct (waiting (gr s g)); [intros (_ & Wk & _); congruence|]. intros (Po & Ba & NS & [(y & Q & Wk & _)|(Q & WT & [[Wk St]|[Wk _]])]); try congruence.
      unfold busy. cbn. repeat split; auto. right. repeat split; auto. right. cbn. now rewrite St.
    + intros lv (W & Po & NS & t & FT & [(Q & Wk & _)|(Q & Ba & WT & [[Wk St]|[Wk _]])]); try congruence. unfold removing. cbn. repeat split; auto. exists t. split; auto. right. repeat split; auto. right. cbn. now rewrite St.
  - (* delivery *) apply inv_group; auto; try lia.
    + unfold okGroup. cbn. destruct (waiting (gr s g)); [intros (_ & _ & _ & Po & _); congruence|]. intros (Po & Ba & NS & [(y & Q & Wk & St & _)|(Q & WT & [[Wk St]|[Wk St]])]); try congruence.
      unfold idle. cbn. repeat split; auto; lia.
    + intros lv (W & Po & _). congruence.
Qed.

(** ** Runs *)
Definition reach := clos_refl_trans state step.
Definition callTasks (c : call) : list task := match c with CRunfirst ts | CRedistribute ts => ts | _ => [] end.
Lemma assigned_compile : forall n calls, assigned (flat_map (compile n) calls) = flat_map callTasks calls.
Proof.
  intros n. assert (T : forall ts, assigned (map IAssign ts) = ts) by (induction ts as [|t ts IH]; auto; unfold assigned in *; cbn [map flat_map app]; now rewrite IH).
  induction calls as [|c cs IH]; auto. cbn [flat_map]. rewrite assigned_app, IH. f_equal.
  destruct c; cbn [compile callTasks]; unfold waitAll, signalAll; rewrite ?assigned_app, ?T, ?assigned_map; auto; try (intros; exact I); rewrite ?app_nil_r; auto; cbn; try (apply assigned_map; intros; exact I).
Qed.
Definition endsResched (calls : list call) : bool := match last calls CRunnext with CReschedule _ => true | _ => false end.
Lemma endsResched_collects : forall n calls, endsResched calls = true -> lastCollects (flat_map (compile n) calls) = true.
Proof.
  intros n calls H. destruct calls as [|c cs] using rev_ind; [discriminate|]. unfold endsResched in H. rewrite last_last in H. destruct c; try discriminate.
  rewrite flat_map_app. cbn [flat_map compile app]. now rewrite lastCollects_app by discriminate.
Qed.
Lemma inv_start : forall n ts calls, (0 < n)%nat -> orderly n true [] calls -> NoDup (map tid (flat_map callTasks calls)) ->
  inv n (flat_map callTasks calls) (endsResched calls) (start n ts calls).
Proof.
  intros n ts calls Hn HO ND. assert (G : forall i, gr (start n ts calls) i = newGroup) by (intros i; unfold gr, start; cbn [groups]; apply nth_repeat).
  pose proof (orderly_chk n calls true [] Hn HO) as CK. unfold inv. unfold start in *. cbn [groups prog allTasks isHeld held] in *. split; [apply repeat_length|]. split; [|split; [|split; [|split; [|exact ND]]]].
  - eexists _, []. split; [apply chk_top; exact CK|]. split; [intros; rewrite G; reflexivity|]. split; [|split].
    + unfold allHeld, heldList. cbn [groups held]. rewrite app_nil_r. replace (concat (map mtasks (repeat newGroup n))) with (@nil task); [reflexivity|]. clear. induction n; auto.
    + apply assigned_compile.
    + intros HE. left. now apply endsResched_collects.
  - rewrite (chk_head _ _ _ _ _ CK). intros i Hi. rewrite G. unfold okGroup, idle. cbn. repeat split; auto.
  - rewrite removals_compile. constructor.
  - rewrite removals_compile. constructor.
Qed.
Lemma inv_reach : forall n A E s t, inv n A E s -> reach s t -> inv n A E t.
Proof. intros n A E s t H R. induction R as [s t S| |s u t _ I1 _ I2]; auto. eapply inv_step; eauto. Qed.

(** *** Termination *)
Definition weight (n : nat) (x : instr) : nat :=
  match x with IRemoveSend _ _ => 8 | IResched moves => 5 + length moves * (12 + 8 * n) | _ => 4 end.
Definition nsum (l : list nat) : nat := fold_right Nat.add 0%nat l.
Definition groupWeight (g : group) : nat := 3 * length (queue g) + (if working g then 2 else 0) + statuses g.
Definition measure (s : state) : nat := nsum (map (weight (length (groups s))) (prog s)) + nsum (map groupWeight (groups s)).
Lemma nsum_app : forall a b, nsum (a ++ b) = (nsum a + nsum b)%nat.
Proof. induction a as [|x a IH]; intros b; auto. cbn [app nsum fold_right]. fold (nsum (a ++ b)). fold (nsum a). rewrite IH. lia. Qed.
Lemma nsum_upd : forall gs g x, (g < length gs)%nat -> (nsum (map groupWeight (upd gs g x)) + groupWeight (nth g gs newGroup) = nsum (map groupWeight gs) + groupWeight x)%nat.
Proof.
  induction gs as [|y gs IH]; intros [|g] x H; cbn [length] in H; try lia; cbn [upd map nsum fold_right nth].
  - lia.
  - specialize (IH g x ltac:(lia)). unfold nsum in IH. lia.
Qed.
Lemma weight_waitAll : forall m n, nsum (map (weight m) (waitAll n)) = (4 * n)%nat.
Proof.
  intros m n. unfold waitAll. rewrite map_map. cbn [weight]. rewrite <- (seq_length n 0) at 2. generalize (seq 0 n). intros l. induction l as [|x l IH]; auto.
  cbn [map nsum fold_right length]. unfold nsum in IH. lia.
Qed.
Lemma weight_expand : forall n gs moves, nsum (map (weight n) (expand n gs moves)) = (4 + length moves * (12 + 8 * n))%nat.
Proof.
  intros n gs moves. unfold expand. rewrite map_app, nsum_app. replace (nsum (map (weight n) [ICollect])) with 4%nat by reflexivity.
  induction moves as [|m moves IH]; [reflexivity|]. cbn [flat_map length]. rewrite map_app, nsum_app. unfold expandMove at 1. rewrite !map_app, !nsum_app, !weight_waitAll.
  cbn [map nsum fold_right weight]. lia.
Qed.
Lemma step_length : forall s t, step s t -> length (groups t) = length (groups s).
Proof. intros s t H. inversion H; subst; unfold withGroup; cbn [groups]; auto; apply upd_length. Qed.
Lemma step_measure : forall s t, step s t -> (measure t < measure s)%nat.
Proof.
  intros s t H. pose proof (step_length s t H) as EL. unfold measure. rewrite EL.
  destruct H as [s t p g EP Hg W|s g p EP Hg W|s g p EP Hg|s g p EP Hg|s g p EP Hg HT|s g p EP Hg HT|s moves p EP|s g lv p t EP Hg FT|s g lv p r b EP Hg EB|s g p t EP Hg EH W|s g p t EP Hg EH W|s p EP
    |s g x q Hg EQ EW|s g Hg EW|s g p st Hg EPo ES]; unfold withGroup in *; cbn [prog groups] in *; try rewrite EP; cbn [map]; unfold nsum at 3 || idtac;
  try (match goal with |- context [upd (groups s) g ?x] => pose proof (nsum_upd (groups s) g x Hg) as U; fold (gr s g) in U end; unfold groupWeight at 2 4 in U;
       cbn [queue working statuses storeAndSend busyAndReceive sendSignal setTasks takeBack startSignal finishSignal deliver] in U; rewrite ?app_length in U; cbn [length] in U);
  cbn [fold_right weight]; fold (nsum (map (weight (length (groups s))) (prog s))); try fold (nsum (map (weight (length (groups s))) p)); try fold (nsum (map groupWeight (groups s)));
  try (cbn [nsum fold_right weight] in *; unfold nsum in *; lia).
  - rewrite map_app, nsum_app, weight_expand. unfold nsum. cbn [fold_right weight]. lia.
  - rewrite EQ, EW in U. cbn [length] in U. lia.
  - rewrite EW in U. lia.
Qed.

(** *** Progress *)
Lemma busy_steps : forall s g, (g < length (groups s))%nat -> busy (gr s g) -> exists t, step s t.
Proof.
  intros s g Hg (Po & Ba & NS & [(x & Q & Wk & _)|(Q & WT & [[Wk St]|[Wk St]])]).
  - eexists. eapply st_start; eauto.
  - eexists. eapply st_finish; eauto.
  - eexists. eapply st_deliver; eauto.
Qed.
Lemma waiting_dec : forall s n, (exists g, (g < n)%nat /\ waiting (gr s g) = false) \/ (forall g, (g < n)%nat -> waiting (gr s g) = true).
Proof.
  intros s. induction n as [|n IH]; [right; lia|]. destruct IH as [(g & Hg & H)|IH]; [left; exists g; auto|].
  destruct (waiting (gr s n)) eqn:E; [|left; exists n; auto]. right. intros g Hg. destruct (Nat.eq_dec g n) as [->|]; auto. apply IH. lia.
Qed.
Lemma find_of_level : forall lv l, In lv (map tlevel l) -> exists t, find (hasLevel lv) l = Some t.
Proof.
  intros lv. induction l as [|x l IH]; intros H; [contradiction|]. cbn [map find] in *. destruct (hasLevel lv x) eqn:E; [eauto|]. destruct H as [H|H]; auto.
  unfold hasLevel in E. destruct (level_eq_dec (tlevel x) lv); congruence.
Qed.
Lemma inv_progress : forall n A E s, (0 < n)%nat -> inv n A E s -> (exists t, step s t) \/ (prog s = [] /\ forall g, (g < n)%nat -> waiting (gr s g) = true /\ idle (gr s g)).
Proof.
  intros n A E s Hn (HL & (K & L & CK & HK & P & HA & HE) & HG & ND & HR & NT). destruct (headRecv (prog s)) as [[g lv]|] eqn:EHR.
  - left. destruct (prog s) as [|x p] eqn:EP; [discriminate|]. destruct x; try discriminate. injection EHR as -> ->. cbn [chkTop] in CK. destruct CK as (_ & Hg & _).
    destruct HG as ((W & Po & NS & t & FT & [(Q & Wk & St & Ba & WT)|(Q & Ba & WT & IW)]) & _).
    + eexists. eapply st_start; eauto. lia.
    + eexists. eapply st_remove_recv; eauto. lia.
  - destruct (waiting_dec s n) as [(g & Hg & W)|W].
    + left. apply (busy_steps s g); [lia|]. specialize (HG g Hg). unfold okGroup in HG. now rewrite W in HG.
    + apply chkTop_chk in CK; auto. destruct (prog s) as [|x p] eqn:EP.
      * right. split; auto. intros g Hg. split; auto. specialize (HG g Hg). unfold okGroup in HG. now rewrite W in HG.
      * left. subst n. destruct x as [t|g|g b|g|moves|g lv|g lv|g|]; cbn [chk] in CK.
        -- eexists. apply (st_assign s t p 0); auto.
        -- eexists. eapply st_wait; eauto; [apply CK|]. apply W, CK.
        -- destruct b; [|contradiction]. eexists. eapply st_signal; eauto. apply CK.
        -- destruct (mtasks (gr s g)) eqn:EM; [eexists; eapply st_signal_no_tasks; eauto; apply CK|]. eexists. eapply st_signal_tasks; eauto; [apply CK|congruence].
        -- eexists. eapply st_resched; eauto.
        -- cbn [removals flat_map app] in HR. inversion HR as [|y ys R1 R2]; subst. cbn [fst snd] in R1. destruct (find_of_level _ _ R1) as [t FT]. eexists. eapply st_remove_send; eauto. apply CK.
        -- contradiction.
        -- destruct CK as (HH & Hg & KG & _). unfold isHeld in HH. destruct (held s) eqn:EH; [|discriminate]. eexists. eapply st_add; eauto.
        -- eexists. eapply st_collect; eauto.
Qed.

(** ** C43, C44, C70 *)
Definition fine (n : nat) (calls : list call) : Prop := (0 < n)%nat /\ orderly n true [] calls /\ NoDup (map tid (flat_map callTasks calls)).
Lemma fine_inv : forall n ts calls s, fine n calls -> reach (start n ts calls) s -> inv n (flat_map callTasks calls) (endsResched calls) s.
Proof. intros n ts calls s (Hn & HO & ND) R. eapply inv_reach; [|exact R]. now apply inv_start. Qed.

(** In every state that can be reached there is a next step, or the manager is done with its calls and every group has answered every signal
    and waits. *)
Theorem C70_no_deadlock : forall n ts calls s, fine n calls -> reach (start n ts calls) s ->
  (exists t, step s t) \/
  (prog s = [] /\ forall g, (g < n)%nat -> waiting (gr s g) = true /\ working (gr s g) = false /\ queue (gr s g) = [] /\ statuses (gr s g) = 0%nat /\ nsent (gr s g) = nreceived (gr s g)).
Proof.
  intros n ts calls s F R. destruct (inv_progress n _ _ s (proj1 F) (fine_inv n ts calls s F R)) as [H|[H1 H2]]; auto. right. split; auto. intros g Hg. destruct (H2 g Hg) as (W & Q & Wk & St & Po & Ba & WT & NS). auto.
Qed.
(** No run is infinite, from any state. *)
Theorem C70_terminates : forall s, Acc (fun b a => step a b) s.
Proof.
  intros s. remember (measure s) as m eqn:Em. revert s Em. induction m as [m IH] using lt_wf_ind. intros s Em. constructor. intros t H. apply (IH (measure t)); auto. subst m. now apply step_measure.
Qed.

(** At every moment the tasks given to groups and those still to be assigned are all tasks, each once; the same holds for the lists of the workers
    when all groups wait and nothing is being moved. *)
Theorem C43_assigned_once : forall n ts tasks s, (0 < n)%nat -> NoDup (map tid tasks) -> reach (start n ts [CRunfirst tasks]) s ->
  Permutation (concat (map mtasks (groups s)) ++ assigned (prog s)) tasks /\
  ((forall g, (g < n)%nat -> waiting (gr s g) = true) -> forall g, (g < n)%nat -> wtasks (gr s g) = mtasks (gr s g)).
Proof.
  intros n ts tasks s Hn ND R. assert (F : fine n [CRunfirst tasks]) by (split; auto; cbn; rewrite app_nil_r; auto).
  assert (NM : Forall (fun x => match x with IRemoveSend _ _ | IRemoveRecv _ _ | IAdd _ | IResched _ => False | _ => True end) (prog s) /\ held s = None).
  { assert (S0 : Forall (fun x => match x with IRemoveSend _ _ | IRemoveRecv _ _ | IAdd _ | IResched _ => False | _ => True end) (prog (start n ts [CRunfirst tasks])) /\ held (start n ts [CRunfirst tasks]) = None).
    { split; [|reflexivity]. unfold start. cbn [prog flat_map compile]. unfold waitAll, signalAll. rewrite app_nil_r, !Forall_app. repeat split; apply Forall_forall; intros x Hx; apply in_map_iff in Hx; destruct Hx as (y & <- & _); exact I. }
    clear - R S0. induction R as [s t S| |s u t _ I1 _ I2]; auto. destruct S0 as [S1 S2].
    inversion S as [s' t' p g EP|s' g p EP|s' g p EP|s' g p EP|s' g p EP|s' g p EP|s' moves p EP|s' g lv p t' EP|s' g lv p r b EP|s' g p t' EP|s' g p t' EP|s' p EP|s' g x q|s' g|s' g p st]; subst; unfold withGroup; cbn [prog held];
      try (rewrite EP in S1; inversion S1; subst; try contradiction); auto. }
  destruct NM as [NM NH]. pose proof (fine_inv n ts _ s F R) as (HL & (K & L & CK & HK & P & HA & HE) & HG & _). cbn [flat_map callTasks] in HA. rewrite app_nil_r in HA. split.
  - rewrite <- HA. apply Permutation_app_tail. unfold allHeld, heldList in P. now rewrite NH, app_nil_r in P.
  - intros W g Hg. destruct (headRecv (prog s)) as [[g' lv]|] eqn:EH.
    + destruct (prog s) as [|[] p]; try discriminate. inversion NM; contradiction.
    + specialize (HG g Hg). unfold okGroup in HG. rewrite (W g Hg) in HG. apply HG.
Qed.
(** When the first round is over, the lists of the groups, on the manager and on the workers, are a partition of the tasks. *)
Theorem C43_runfirst : forall n ts tasks s, (0 < n)%nat -> NoDup (map tid tasks) -> reach (start n ts [CRunfirst tasks]) s -> ~ (exists t, step s t) ->
  Permutation (concat (map mtasks (groups s))) tasks /\ map wtasks (groups s) = map mtasks (groups s).
Proof.
  intros n ts tasks s Hn ND R T. assert (F : fine n [CRunfirst tasks]) by (split; auto; cbn; rewrite app_nil_r; auto).
  destruct (C43_assigned_once n ts tasks s Hn ND R) as [A B]. destruct (C70_no_deadlock n ts _ s F R) as [C|[C D]]; [contradiction|]. rewrite C in A. cbn [assigned flat_map] in A. rewrite app_nil_r in A. split; auto.
  pose proof (fine_inv n ts _ s F R) as (HL & _). apply nth_ext with (d := wtasks newGroup) (d' := mtasks newGroup); rewrite !map_length; auto. intros i Hi. rewrite !map_nth. apply B; [|lia]. intros g Hg. now apply D.
Qed.

(** A signal is only sent to a group that has reported: all earlier signals are answered, the group does nothing. *)
Theorem C44_signal_to_waiting : forall n ts calls s t g, fine n calls -> reach (start n ts calls) s -> step s t -> (g < n)%nat -> nsent (gr t g) <> nsent (gr s g) ->
  nsent (gr t g) = S (nsent (gr s g)) /\ waiting (gr s g) = true /\ working (gr s g) = false /\ queue (gr s g) = [] /\ statuses (gr s g) = 0%nat /\ nsent (gr s g) = nreceived (gr s g).
Proof.
  intros n ts calls s t g F R S Hg NE. pose proof (fine_inv n ts calls s F R) as (HL & (K & L & CK & HK & P & HA & HE) & HG & _).
  assert (O : waiting (gr s g) = true -> headRecv (prog s) = None -> waiting (gr s g) = true /\ working (gr s g) = false /\ queue (gr s g) = [] /\ statuses (gr s g) = 0%nat /\ nsent (gr s g) = nreceived (gr s g)).
  { intros W HN. rewrite HN in HG. specialize (HG g Hg). unfold okGroup in HG. rewrite W in HG. destruct HG as (Q & Wk & St & Po & Ba & WT & NS). auto. }
  inversion S as [s' t' p g' EP Hg' W|s' g' p EP Hg'|s' g' p EP Hg'|s' g' p EP Hg'|s' g' p EP Hg'|s' g' p EP Hg'|s' moves p EP|s' g' lv p t' EP Hg'|s' g' lv p r b EP Hg'|s' g' p t' EP Hg' EH W|s' g' p t' EP Hg'|s' p EP|s' g' x q Hg'|s' g' Hg'|s' g' p st Hg'];
    subst; unfold withGroup in *; try (exfalso; apply NE; reflexivity);
    (destruct (Nat.eq_dec g' g) as [->|N]; [rewrite gr_upd_same in * by auto|exfalso; apply NE; now rewrite gr_upd_other by auto]); try (exfalso; apply NE; reflexivity);
    (split; [reflexivity|]; rewrite EP in *; cbn [chkTop headRecv] in *; cbn [chk] in *; apply O; auto; try (apply HK; apply CK); try contradiction).
Qed.
(** At every moment at most one signal of a group is not yet answered; no status is received without a signal. *)
Theorem C44_counts : forall n ts calls s g, fine n calls -> reach (start n ts calls) s -> (g < n)%nat ->
  (nreceived (gr s g) <= nsent (gr s g) <= S (nreceived (gr s g)))%nat /\ (length (queue (gr s g)) + (if working (gr s g) then 1 else 0) + statuses (gr s g) = nsent (gr s g) - nreceived (gr s g))%nat.
Proof.
  intros n ts calls s g F R Hg. pose proof (fine_inv n ts calls s F R) as (HL & (K & L & CK & HK & P & HA & HE) & HG & _).
  assert (O : okGroup (gr s g) -> (nreceived (gr s g) <= nsent (gr s g) <= S (nreceived (gr s g)))%nat /\ (length (queue (gr s g)) + (if working (gr s g) then 1 else 0) + statuses (gr s g) = nsent (gr s g) - nreceived (gr s g))%nat).
  { unfold okGroup. destruct (waiting (gr s g)).
    - intros (Q & Wk & St & Po & Ba & WT & NS). rewrite Q, Wk, St, NS. cbn [length]. lia.
    - intros (Po & Ba & NS & [(x & Q & Wk & St & _)|(Q & WT & [[Wk St]|[Wk St]])]); rewrite Q, Wk, St, NS; cbn [length]; lia. }
  destruct (headRecv (prog s)) as [[g' lv]|] eqn:EH; [|apply O, HG; exact Hg]. destruct HG as (RG & OK & _). destruct (Nat.eq_dec g g') as [->|N]; [|apply O, OK; auto].
  destruct RG as (W & Po & NS & t & FT & [(Q & Wk & St & Ba & WT)|(Q & Ba & WT & [[Wk St]|[Wk St]])]); rewrite Q, Wk, St, NS; cbn [length]; lia.
Qed.

(** ** C45 *)
(** After any sequence of calls that ends with reschedule, the manager's list of tasks, the lists of the groups and those of the workers have every
    task once. *)
Theorem C45_no_task_lost : forall n ts calls moves s, fine n (calls ++ [CReschedule moves]) -> reach (start n ts (calls ++ [CReschedule moves])) s -> ~ (exists t, step s t) ->
  Permutation (allTasks s) (flat_map callTasks calls) /\ Permutation (concat (map mtasks (groups s))) (flat_map callTasks calls) /\ map wtasks (groups s) = map mtasks (groups s) /\ held s = None.
Proof.
  intros n ts calls moves s F R T. pose proof (fine_inv n ts _ s F R) as HI. destruct (inv_progress n _ _ s (proj1 F) HI) as [C|[C D]]; [contradiction|].
  destruct HI as (HL & (K & L & CK & HK & P & HA & HE) & _). rewrite C in CK, HA, HE. cbn [chkTop chk assigned flat_map] in CK, HA. rewrite app_nil_r in HA. subst L. rewrite flat_map_app in *. cbn [flat_map callTasks] in *. rewrite !app_nil_r in *.
  unfold isHeld in CK. destruct (held s) eqn:EH; [discriminate|]. split; [|split; [|split; auto]].
  - destruct HE as [H|[_ H]]; [|discriminate|exact H]. unfold endsResched. now rewrite last_last.
  - unfold allHeld, heldList in P. now rewrite EH, app_nil_r in P.
  - apply nth_ext with (d := wtasks newGroup) (d' := mtasks newGroup); rewrite !map_length; auto. intros i Hi. rewrite !map_nth. apply D. lia.
Qed.
(** The same for any orderly sequence of calls, for the groups' lists. *)
Theorem C45_all_calls : forall n ts calls s, fine n calls -> reach (start n ts calls) s -> ~ (exists t, step s t) ->
  Permutation (concat (map mtasks (groups s))) (flat_map callTasks calls) /\ map wtasks (groups s) = map mtasks (groups s).
Proof.
  intros n ts calls s F R T. pose proof (fine_inv n ts _ s F R) as HI. destruct (inv_progress n _ _ s (proj1 F) HI) as [C|[C D]]; [contradiction|].
  destruct HI as (HL & (K & L & CK & HK & P & HA & HE) & _). rewrite C in CK, HA, HE. cbn [chkTop chk assigned flat_map] in CK, HA. rewrite app_nil_r in HA. subst L.
  unfold isHeld in CK. destruct (held s) eqn:EH; [discriminate|]. split.
  - unfold allHeld, heldList in P. now rewrite EH, app_nil_r in P.
  - apply nth_ext with (d := wtasks newGroup) (d' := mtasks newGroup); rewrite !map_length; auto. intros i Hi. rewrite !map_nth. apply D. lia.
Qed.

(** Where the tasks are after the moves. [det]: the effect of the rest of the program on the lists. *)
Definition put (m : nat -> list task) (g : nat) (l : list task) : nat -> list task := fun i => if (i =? g)%nat then l else m i.
Definition hlist (h : option task) : list task := match h with Some t => [t] | None => [] end.
Fixpoint det (p : list instr) (m : nat -> list task) (h : option task) : nat -> list task :=
  match p with
  | [] => m
  | (IRemoveSend g lv | IRemoveRecv g lv) :: p' => det p' (put m g (removeLevel lv (m g))) (find (hasLevel lv) (m g))
  | IAdd g :: p' => det p' (put m g (m g ++ hlist h)) None
  | _ :: p' => det p' m h
  end.
Lemma det_ext : forall p m m' h, (forall i, m i = m' i) -> forall i, det p m h i = det p m' h i.
Proof.
  induction p as [|x p IH]; intros m m' h H i; cbn [det]; auto. assert (PE : forall g l i, put m g l i = put m' g l i) by (intros; unfold put; destruct (_ =? _)%nat; auto).
  destruct x; cbn [det]; auto; rewrite ?H; apply IH; auto.
Qed.
Definition noAssign (p : list instr) : Prop := Forall (fun x => match x with IAssign _ | IResched _ => False | _ => True end) p.
Lemma det_step : forall n A E s t, inv n A E s -> noAssign (prog s) -> step s t ->
  noAssign (prog t) /\ forall i, det (prog t) (fun g => mtasks (gr t g)) (held t) i = det (prog s) (fun g => mtasks (gr s g)) (held s) i.
Proof.
  intros n A E s t HI NA S. pose proof HI as (HL & (K & L & CK & HK & P & HA & HE) & HG & ND & HR & NT).
  assert (PU : forall p g x h a, (g < length (groups s))%nat -> forall i, mtasks (gr (State p (upd (groups s) g x) h a) i) = put (fun j => mtasks (gr s j)) g (mtasks x) i).
  { intros p g x h a Hg i. unfold put. destruct (Nat.eqb_spec i g) as [->|NE]; [now rewrite gr_upd_same|now rewrite gr_upd_other]. }
  assert (SM : forall p g x h a, (g < length (groups s))%nat -> mtasks x = mtasks (gr s g) -> forall i, mtasks (gr (State p (upd (groups s) g x) h a) i) = mtasks (gr s i)).
  { intros p g x h a Hg EM i. rewrite PU by auto. unfold put. destruct (Nat.eqb_spec i g) as [->|NE]; auto. }
  destruct S as [s t p g EP Hg W|s g p EP Hg W|s g p EP Hg|s g p EP Hg|s g p EP Hg HT|s g p EP Hg HT|s moves p EP|s g lv p t EP Hg FT|s g lv p r b EP Hg EB|s g p t EP Hg EH W|s g p t EP Hg EH W|s p EP
    |s g x q Hg EQ EW|s g Hg EW|s g p st Hg EPo ES]; unfold withGroup in *; cbn [prog held].
  1-12: rewrite EP in *; cbn [chkTop headRecv] in CK, HG; cbn [chk] in CK; inversion NA; subst; try contradiction; (split; [auto; try (constructor; auto)|]); intros i; cbn [det].
  all: try (apply det_ext; intros j; apply SM; auto; fail).
  all: try reflexivity.
  - rewrite (SM _ g (sendSignal (SRemove (tid t)) (gr s g)) _ _ Hg eq_refl g). apply det_ext. intros j. unfold put. destruct (j =? g)%nat; rewrite ?SM; auto.
  - destruct HG as ((W & Po & NS & t & FT & [(Q & Wk & St & Ba & WT)|(Q & Ba & WT & IW)]) & _); rewrite Ba in EB; [discriminate|]. injection EB as <- <-. rewrite FT. apply det_ext. intros j. now rewrite PU.
  - rewrite EH. cbn [hlist]. apply det_ext. intros j. now rewrite PU.
  - destruct CK as (_ & Hg' & KG & _). rewrite (HK g Hg' KG) in W. discriminate.
  - split; auto. intros i. apply det_ext. intros j. now apply SM.
  - split; auto. intros i. apply det_ext. intros j. now apply SM.
  - split; auto. intros i. apply det_ext. intros j. now apply SM.
Qed.
Lemma det_reach : forall n A E s t, inv n A E s -> noAssign (prog s) -> reach s t ->
  noAssign (prog t) /\ forall i, det (prog t) (fun g => mtasks (gr t g)) (held t) i = det (prog s) (fun g => mtasks (gr s g)) (held s) i.
Proof.
  intros n A E s t HI NA R. revert HI NA. induction R as [s t S| |s u t R1 I1 R2 I2]; intros HI NA; [eapply det_step; eauto|auto|].
  destruct (I1 HI NA) as [N1 D1]. destruct (I2 (inv_reach _ _ _ _ _ HI R1) N1) as [N2 D2]. split; auto. intros i. now rewrite D2.
Qed.
Lemma det_waits : forall l p m h i, det (map IWait l ++ p) m h i = det p m h i.
Proof. induction l as [|x l IH]; intros; cbn [map app det]; auto. Qed.
Lemma task_kept : forall lv t l, tlevel t <> lv -> In t l -> In t (removeLevel lv l).
Proof.
  intros lv t l NE. induction l as [|x l IH]; intros H; [exact H|]. cbn [removeLevel]. destruct (hasLevel lv x) eqn:E.
  - destruct H as [->|H]; auto. unfold hasLevel in E. destruct (level_eq_dec (tlevel t) lv); congruence.
  - destruct H as [H|H]; [now left|right; auto].
Qed.
Lemma find_kept : forall lv lv' l l2 t, lv' <> lv -> find (hasLevel lv') l = Some t -> find (hasLevel lv') (removeLevel lv l ++ l2) = Some t.
Proof.
  intros lv lv' l l2 t NE. induction l as [|x l IH]; intros H; [discriminate|]. cbn [removeLevel find] in *. destruct (hasLevel lv x) eqn:E.
  - assert (X : hasLevel lv' x = false) by (unfold hasLevel in *; destruct (level_eq_dec (tlevel x) lv'), (level_eq_dec (tlevel x) lv); congruence). rewrite X in H.
    clear - H. induction l as [|y l IH]; [discriminate|]. cbn [app find] in *. destruct (hasLevel lv' y); auto.
  - cbn [app find]. destruct (hasLevel lv' x); auto.
Qed.
Lemma det_move : forall n gs lv to p m i, det (expandMove n gs (lv, to) ++ p) m None i =
  det p (put (put m (groupOfLevel gs lv) (removeLevel lv (m (groupOfLevel gs lv)))) to (put m (groupOfLevel gs lv) (removeLevel lv (m (groupOfLevel gs lv))) to ++ hlist (find (hasLevel lv) (m (groupOfLevel gs lv))))) None i.
Proof. intros. unfold expandMove, waitAll. cbn [fst snd]. rewrite <- !app_assoc. cbn [app det]. rewrite det_waits. cbn [app det]. now rewrite det_waits. Qed.
Lemma det_stays : forall n gs moves m g t, In t (m g) -> ~ In (tlevel t) (map fst moves) -> In t (det (flat_map (expandMove n gs) moves ++ [ICollect]) m None g).
Proof.
  intros n gs. induction moves as [|[lv to] moves IH]; intros m g t H NI; [exact H|]. cbn [flat_map]. rewrite <- app_assoc, det_move. cbn [map fst] in NI. apply IH; [|intros C; apply NI; now right].
  assert (NE : tlevel t <> lv) by (intros C; apply NI; now left). unfold put. destruct (Nat.eqb_spec g to) as [->|]; [apply in_or_app; left|]; destruct (Nat.eqb_spec to (groupOfLevel gs lv)) as [->|]; auto; try (now apply task_kept).
  - destruct (Nat.eqb_spec g (groupOfLevel gs lv)) as [->|]; auto. now apply task_kept.
  - destruct (Nat.eqb_spec g (groupOfLevel gs lv)) as [->|]; auto. now apply task_kept.
Qed.
Lemma det_moved : forall n gs moves m lv to t, NoDup (map fst moves) -> In (lv, to) moves -> find (hasLevel lv) (m (groupOfLevel gs lv)) = Some t ->
  In t (det (flat_map (expandMove n gs) moves ++ [ICollect]) m None to).
Proof.
  intros n gs. induction moves as [|[lv' to'] moves IH]; intros m lv to t ND HI FT; [contradiction|]. cbn [map fst] in ND. inversion ND as [|y ys N1 N2]; subst. cbn [flat_map]. rewrite <- app_assoc, det_move. destruct HI as [HI|HI].
  - injection HI as -> ->. apply det_stays.
    + unfold put at 1. rewrite Nat.eqb_refl, FT. apply in_or_app. right. now left.
    + apply find_level in FT. destruct FT as (_ & _ & ->). exact N1.
  - assert (NE : lv <> lv') by (intros ->; apply N1; apply in_map_iff; exists (lv', to); auto). apply (IH _ lv); auto.
    set (h := hlist _). clearbody h. unfold put. destruct (Nat.eqb_spec (groupOfLevel gs lv) to') as [<-|NT].
    + destruct (Nat.eqb_spec (groupOfLevel gs lv) (groupOfLevel gs lv')) as [<-|]; [now apply find_kept|]. clear - FT. induction (m (groupOfLevel gs lv)) as [|y l IHl]; [discriminate|]. cbn [app find] in *. destruct (hasLevel lv y); auto.
    + destruct (Nat.eqb_spec (groupOfLevel gs lv) (groupOfLevel gs lv')) as [<-|]; auto. rewrite <- (app_nil_r (removeLevel _ _)). now apply find_kept.
Qed.
(** When the moves have been carried out, every task that had to be moved is in the group it had to be moved to, and the tasks whose level is not
    moved are where they were. *)
Theorem C45_tasks_moved : forall n ts calls moves s0 s, fine n (calls ++ [CReschedule moves]) -> reach (start n ts (calls ++ [CReschedule moves])) s0 -> prog s0 = [IResched moves] -> reach s0 s -> prog s = [] ->
  (forall lv to, In (lv, to) moves -> exists t, tlevel t = lv /\ In t (concat (map mtasks (groups s0))) /\ In t (mtasks (gr s to))) /\
  (forall g t, In t (mtasks (gr s0 g)) -> ~ In (tlevel t) (map fst moves) -> In t (mtasks (gr s g))).
Proof.
  intros n ts calls moves s0 s F R EP R1 EP1. pose proof (fine_inv n ts _ s0 F R) as HI.
  assert (N1 : exists s1, step s0 s1 /\ reach s1 s).
  { apply clos_rt_rt1n in R1. inversion R1; subst; [congruence|]. eexists. split; eauto. now apply clos_rt1n_rt. }
  destruct N1 as (s1 & S1 & R2).
  assert (E1 : s1 = State (expand (length (groups s0)) (groups s0) moves ++ []) (groups s0) (held s0) (allTasks s0) /\ held s0 = None /\ NoDup (map fst moves) /\
    Forall (fun x => In (fst x) (map tlevel (concat (map mtasks (groups s0))))) moves).
  { destruct HI as (HL & (K & L & CK & HK & P & HA & HE) & HG & _). rewrite EP in CK, HG. cbn [chkTop chk headRecv] in CK, HG. destruct CK as (HH & KA & [GM NM] & _).
    unfold isHeld in HH. destruct (held s0) eqn:EH; [discriminate|].
    assert (ID : forall g, (g < length (groups s0))%nat -> idle (gr s0 g)). { intros g Hg. specialize (HG g ltac:(lia)). unfold okGroup in HG. now rewrite (HK g ltac:(lia) (KA g ltac:(lia))) in HG. }
    split; [|split; [reflexivity|split; [exact NM|]]].
    - rewrite <- EH. inversion S1 as [s' t' p g' EP' Hg' W|s' g' p EP' Hg'|s' g' p EP' Hg'|s' g' p EP' Hg'|s' g' p EP' Hg'|s' g' p EP' Hg'|s' moves' p EP'|s' g' lv p t' EP' Hg'|s' g' lv p r b EP' Hg'|s' g' p t' EP' Hg' EH' W|s' g' p t' EP' Hg'|s' p EP'|s' g' x q Hg' Q|s' g' Hg' Q|s' g' p st Hg' Q]; subst; try congruence.
      + destruct (ID g' Hg') as (Q' & _). congruence.
      + destruct (ID g' Hg') as (_ & Q' & _). congruence.
      + destruct (ID g' Hg') as (_ & _ & _ & Q' & _). congruence.
    - unfold allHeld, heldList in P. rewrite EH, app_nil_r in P. eapply Forall_impl; [|exact GM]. intros x [_ H]. now apply (In_level_perm _ _ L). }
  destruct E1 as (E1 & EH & NM & GM). rewrite app_nil_r in E1.
  assert (NA : noAssign (prog s1)).
  { subst s1. cbn [prog]. unfold expand, noAssign. rewrite Forall_app. split; [|repeat constructor]. apply Forall_flat_map. apply Forall_forall. intros x _. unfold expandMove, waitAll.
    rewrite !Forall_app. repeat split; try (repeat constructor); apply Forall_forall; intros y Hy; apply in_map_iff in Hy; destruct Hy as (z & <- & _); exact I. }
  destruct (det_reach n _ _ s1 s (inv_step _ _ _ _ _ HI S1) NA R2) as [_ D]. subst s1. cbn [prog held] in D. rewrite EP1, EH in D. cbn [det] in D. unfold expand in D. unfold gr in D at 2. cbn [groups] in D. split.
  - intros lv to Hm. rewrite Forall_forall in GM. specialize (GM _ Hm). cbn [fst] in GM. destruct (groupOfLevel_In (groups s0) lv GM) as [G1 G2]. destruct (find_of_level _ _ G2) as [t FT]. exists t. destruct (find_level _ _ _ FT) as (_ & I1 & I2). split; [exact I2|]. split.
    + apply in_concat. exists (mtasks (nth (groupOfLevel (groups s0) lv) (groups s0) newGroup)). split; auto. apply in_map, nth_In. lia.
    + rewrite D. apply (det_moved _ _ _ _ lv); auto.
  - intros g t H1 H2. rewrite D. apply det_stays; auto.
Qed.

(** ** Concrete runs *)
(** An action: a step of the manager (with the group for an assignment), of a group, or a delivery. *)
Inductive act := AM (g : nat) | AS (g : nat) | AF (g : nat) | AD (g : nat).
Definition lessThan (s : state) (g : nat) : bool := (g <? length (groups s))%nat.
Definition exec (a : act) (s : state) : option state :=
  match a with
  | AM g0 =>
      match prog s with
      | IAssign t :: p => if lessThan s g0 && waiting (gr s g0) then Some (withGroup s p g0 (storeAndSend t (gr s g0))) else None
      | IWait g :: p => if lessThan s g && waiting (gr s g) then Some (State p (groups s) (held s) (allTasks s)) else None
      | ISignal g true :: p => if lessThan s g then Some (withGroup s p g (busyAndReceive (sendSignal SWork (gr s g)))) else None
      | ISignal g false :: p => if lessThan s g then Some (withGroup s p g (sendSignal SWork (gr s g))) else None
      | ISignalIfTasks g :: p => if lessThan s g then match mtasks (gr s g) with
                                 | [] => Some (State p (groups s) (held s) (allTasks s))
                                 | _ => Some (withGroup s p g (busyAndReceive (sendSignal SWork (gr s g)))) end else None
      | IResched moves :: p => Some (State (expand (length (groups s)) (groups s) moves ++ p) (groups s) (held s) (allTasks s))
      | IRemoveSend g lv :: p => if lessThan s g then match find (hasLevel lv) (mtasks (gr s g)) with
                                 | Some t => Some (withGroup s (IRemoveRecv g lv :: p) g (sendSignal (SRemove (tid t)) (gr s g)))
                                 | None => None end else None
      | IRemoveRecv g lv :: p => if lessThan s g then match back (gr s g) with
                                 | r :: b => Some (State p (upd (groups s) g (busyAndReceive (setTasks (removeLevel lv (mtasks (gr s g))) (takeBack b (gr s g))))) (Some r) (allTasks s))
                                 | [] => None end else None
      | IAdd g :: p => if lessThan s g && waiting (gr s g) then match held s with
                       | Some t => Some (State p (upd (groups s) g (storeAndSend t (gr s g))) None (allTasks s))
                       | None => None end else None
      | ICollect :: p => Some (State p (groups s) (held s) (concat (map mtasks (groups s))))
      | [] => None
      end
  | AS g => match queue (gr s g) with x :: q => if lessThan s g && negb (working (gr s g)) then Some (withGroup s (prog s) g (startSignal x q (gr s g))) else None | [] => None end
  | AF g => if lessThan s g && working (gr s g) then Some (withGroup s (prog s) g (finishSignal (gr s g))) else None
  | AD g => match posted (gr s g), statuses (gr s g) with S p, S st => if lessThan s g then Some (withGroup s (prog s) g (deliver p st (gr s g))) else None | _, _ => None end
  end.
Lemma exec_step : forall a s t, exec a s = Some t -> step s t.
Proof.
  intros a s t H. unfold exec, lessThan in H. destruct a as [g0|g|g|g].
  - destruct (prog s) as [|x p] eqn:EP; [discriminate|]. destruct x as [t'|g|g b|g|moves|g lv|g lv|g|].
    + destruct (Nat.ltb_spec g0 (length (groups s))); [|discriminate]. destruct (waiting (gr s g0)) eqn:W; [|discriminate]. injection H as <-. now apply st_assign.
    + destruct (Nat.ltb_spec g (length (groups s))); [|discriminate]. destruct (waiting (gr s g)) eqn:W; [|discriminate]. injection H as <-. eapply st_wait; eauto.
    + destruct (Nat.ltb_spec g (length (groups s))); [|destruct b; discriminate]. destruct b; injection H as <-; [now apply st_signal|now apply st_signal_only].
    + destruct (Nat.ltb_spec g (length (groups s))); [|discriminate]. destruct (mtasks (gr s g)) eqn:M; injection H as <-; [eapply st_signal_no_tasks|apply st_signal_tasks]; eauto; congruence.
    + injection H as <-. now apply st_resched.
    + destruct (Nat.ltb_spec g (length (groups s))); [|discriminate]. destruct (find _ _) eqn:M; [|discriminate]. injection H as <-. now apply st_remove_send.
    + destruct (Nat.ltb_spec g (length (groups s))); [|discriminate]. destruct (back (gr s g)) eqn:M; [discriminate|]. injection H as <-. now apply st_remove_recv.
    + destruct (Nat.ltb_spec g (length (groups s))); [|discriminate]. destruct (waiting (gr s g)) eqn:W; [|discriminate]. cbn [andb] in H. destruct (held s) eqn:M; [|discriminate]. injection H as <-. now apply st_add.
    + injection H as <-. now apply st_collect.
  - destruct (queue (gr s g)) eqn:Q; [discriminate|]. destruct (Nat.ltb_spec g (length (groups s))); [|discriminate]. destruct (working (gr s g)) eqn:W; [discriminate|]. injection H as <-. now apply st_start.
  - destruct (Nat.ltb_spec g (length (groups s))); [|discriminate]. destruct (working (gr s g)) eqn:W; [|discriminate]. injection H as <-. now apply st_finish.
  - destruct (posted (gr s g)) eqn:Po; [discriminate|]. destruct (statuses (gr s g)) eqn:St; [discriminate|]. destruct (Nat.ltb_spec g (length (groups s))); [|discriminate]. injection H as <-. now apply st_deliver.
Qed.
Fixpoint execs (l : list act) (s : state) : option state := match l with [] => Some s | a :: l' => match exec a s with Some t => execs l' t | None => None end end.
Lemma execs_reach : forall l s t, execs l s = Some t -> reach s t.
Proof.
  induction l as [|a l IH]; intros s t H; cbn [execs] in H; [injection H as <-; apply rt_refl|]. destruct (exec a s) as [u|] eqn:E; [|discriminate]. eapply rt_trans; [apply rt_step; eapply exec_step; eauto|now apply IH].
Qed.
(** A signal is worked on and answered. *)
Definition serve (g : nat) : list act := [AS g; AF g; AD g].

Definition T1 := Task 1 [2; 3].
Definition T2 := Task 2 [3; 2].
Definition T3 := Task 3 [4; 1].

(** With as many tasks as groups, a group can remain without a task: a fast group gets several. runnext then does not signal that group, and the
    combination of the group works on nothing. *)
Theorem C43_group_without_task_refuted : exists n ts s, length ts = n /\ NoDup (map tid ts) /\ reach (start n ts [CRunfirst ts]) s /\ prog s = [] /\
  exists g, (g < n)%nat /\ mtasks (gr s g) = [].
Proof.
  exists 2%nat, [T1; T2]. eexists. split; [reflexivity|]. split; [repeat constructor; cbn; lia|]. split.
  - apply execs_reach with (l := [AM 0%nat] ++ serve 0 ++ [AM 0%nat] ++ serve 0 ++ repeat (AM 0%nat) 6 ++ serve 0 ++ serve 1 ++ [AM 0%nat; AM 0%nat]). vm_compute. reflexivity.
  - split; [reflexivity|]. exists 1%nat. split; [lia|reflexivity].
Qed.
(** doDiagnostics does not receive the status of its signal: after it, the manager takes the status for the answer to its next signal. It holds the
    group for waiting although the group has not started to work on the signal. *)
Theorem C44_diagnostics_refuted : exists n calls s g, reach (start n [] calls) s /\ (g < n)%nat /\ prog s = [] /\ calls = [CDiagnostics 0; CAll] /\
  waiting (gr s g) = true /\ queue (gr s g) = [SWork] /\ nsent (gr s g) = S (nreceived (gr s g)).
Proof.
  exists 1%nat, [CDiagnostics 0; CAll]. eexists. exists 0%nat. split.
  - apply execs_reach with (l := [AM 0%nat; AM 0%nat; AS 0%nat; AF 0%nat; AM 0%nat; AM 0%nat; AD 0%nat; AM 0%nat]). vm_compute. reflexivity.
  - repeat split; try reflexivity; lia.
Qed.
(** interpolateValues and getLpNorms do not wait for the groups: called twice, they signal a group that is still working. *)
Theorem C44_interpolate_twice_refuted : exists n calls s t g, calls = [CInterpolate; CInterpolate] /\ reach (start n [] calls) s /\ step s t /\ (g < n)%nat /\
  nsent (gr t g) = S (nsent (gr s g)) /\ waiting (gr s g) = false /\ working (gr s g) = true.
Proof.
  exists 1%nat, [CInterpolate; CInterpolate]. eexists. eexists. exists 0%nat. split; [reflexivity|]. split.
  - apply execs_reach with (l := [AM 0%nat; AS 0%nat]). vm_compute. reflexivity.
  - split; [apply (exec_step (AM 0%nat)); vm_compute; reflexivity|]. repeat split; try reflexivity; lia.
Qed.

(** An orderly sequence: first round, combination, rescheduling of two tasks, next round, interpolation. *)
Definition exampleCalls := [CRunfirst [T1; T2; T3]; CAll; CReschedule [([2; 3], 1%nat); ([4; 1], 0%nat)]; CRunnext; CInterpolate].
Example C45_example_fine : fine 2 exampleCalls.
Proof.
  split; [lia|]. split; [|repeat constructor; cbn; lia]. cbn. split; [reflexivity|]. split; [|auto]. split.
  - repeat constructor; cbn; auto; lia.
  - repeat constructor; cbn; intuition discriminate.
Qed.
Definition moveCalls := [CRunfirst [T1; T2; T3]; CReschedule [([2; 3], 1%nat); ([4; 1], 0%nat)]].
Definition moveActs : list act :=
  [AM 0%nat; AM 1%nat] ++ serve 1 ++ [AM 1%nat] ++ serve 0 ++ serve 1 ++ repeat (AM 0%nat) 6 ++ serve 1 ++ serve 0 ++ [AM 0%nat; AM 0%nat].
Definition moveActs2 : list act :=
  [AM 0%nat] ++ [AM 0%nat; AS 0%nat; AM 0%nat; AF 0%nat; AD 0%nat; AM 0%nat; AM 0%nat; AM 0%nat] ++ serve 1 ++ [AM 0%nat; AM 0%nat] ++
  [AM 0%nat; AS 1%nat; AF 1%nat; AM 0%nat; AD 1%nat; AM 0%nat; AM 0%nat; AM 0%nat] ++ serve 0 ++ [AM 0%nat; AM 0%nat; AM 0%nat].
Example C45_example : fine 2 moveCalls /\ exists s0 s, reach (start 2 [] moveCalls) s0 /\ prog s0 = [IResched [([2; 3], 1%nat); ([4; 1], 0%nat)]] /\ map mtasks (groups s0) = [[T1]; [T2; T3]] /\
  reach s0 s /\ prog s = [] /\ map mtasks (groups s) = [[T3]; [T2; T1]] /\ map wtasks (groups s) = [[T3]; [T2; T1]] /\ allTasks s = [T3; T2; T1] /\ ~ exists t, step s t.
Proof.
  split.
  { split; [lia|]. split; [|repeat constructor; cbn; lia]. cbn. split; [reflexivity|]. split; [|auto]. split; [repeat constructor; cbn; auto; lia|repeat constructor; cbn; intuition discriminate]. }
  eexists. eexists. split; [apply execs_reach with (l := moveActs); vm_compute; reflexivity|]. split; [reflexivity|]. split; [reflexivity|].
  split; [apply execs_reach with (l := moveActs2); vm_compute; reflexivity|]. repeat (split; [reflexivity|]). intros [t S]. inversion S; subst; cbn in *; try discriminate;
  repeat match goal with H : (?g < 2)%nat |- _ => destruct g as [|[|]]; [| |lia] end; cbn in *; discriminate.
Qed.

Print Assumptions C70_no_deadlock.
Print Assumptions C70_terminates.
Print Assumptions C43_assigned_once.
Print Assumptions C43_runfirst.
Print Assumptions C44_signal_to_waiting.
Print Assumptions C44_counts.
Print Assumptions C45_no_task_lost.
Print Assumptions C45_all_calls.
Print Assumptions C45_tasks_moved.
Print Assumptions C43_group_without_task_refuted.
Print Assumptions C44_diagnostics_refuted.
Print Assumptions C44_interpolate_twice_refuted.
