(** Order and floor on rational numbers, and a tactic that decides linear facts on them. *)
From Verif Require Import Base.
From Coq Require Import QArith Qcanon Qround.
From Coq Require Export Lqa.
Open Scope Z_scope.

Definition zq (z : Z) : Qc := Q2Qc (inject_Z z).
Definition qabs (a : Qc) : Qc := match (a ?= 0)%Qc with Lt => (- a)%Qc | _ => a end.
Definition qltb (a b : Qc) : bool := match (a ?= b)%Qc with Lt => true | _ => false end.
Definition qfloor (a : Qc) : Z := Qfloor (this a).

Lemma this_plus : forall a b : Qc, (this (a + b)%Qc == this a + this b)%Q.
Proof. intros. apply Qred_correct. Qed.
Lemma this_mult : forall a b : Qc, (this (a * b)%Qc == this a * this b)%Q.
Proof. intros. apply Qred_correct. Qed.
Lemma this_opp : forall a : Qc, (this (- a)%Qc == - this a)%Q.
Proof. intros. apply Qred_correct. Qed.
Lemma this_minus : forall a b : Qc, (this (a - b)%Qc == this a - this b)%Q.
Proof. intros. unfold Qcminus. rewrite this_plus, this_opp. reflexivity. Qed.
Lemma this_zq : forall z, (this (zq z) == inject_Z z)%Q.
Proof. intros. apply Qred_correct. Qed.
Lemma this_Q2Qc : forall q, (this (Q2Qc q) == q)%Q.
Proof. intros. apply Qred_correct. Qed.
Lemma this_0 : (this 0%Qc == 0)%Q.
Proof. reflexivity. Qed.
Lemma this_1 : (this 1%Qc == 1)%Q.
Proof. reflexivity. Qed.

(** Linear arithmetic: equalities and inequalities on Qc become ones on Q. *)
Ltac toQ :=
  repeat match goal with
  | H : @eq Qc ?a ?b |- _ => apply (f_equal this) in H; assert (this a == this b)%Q by (rewrite H; reflexivity); clear H
  | H : (_ < _)%Qc |- _ => unfold Qclt in H
  | H : (_ <= _)%Qc |- _ => unfold Qcle in H
  | H : ~ (_ < _)%Qc |- _ => apply Qcnot_lt_le in H
  | H : ~ (_ <= _)%Qc |- _ => apply Qcnot_le_lt in H
  end;
  try match goal with
  | |- @eq Qc _ _ => apply Qc_is_canon
  | |- (_ < _)%Qc => unfold Qclt
  | |- (_ <= _)%Qc => unfold Qcle
  end;
  repeat match goal with H : context [this _] |- _ => progress rewrite ?this_plus, ?this_mult, ?this_minus, ?this_opp, ?this_0, ?this_1 in H end;
  repeat progress rewrite ?this_plus, ?this_mult, ?this_minus, ?this_opp, ?this_0, ?this_1.
Ltac qlra := repeat match goal with H : ~ (@eq Z _ _) |- _ => clear H end; toQ; lra.

Lemma zq_add : forall a b, zq (a + b) = (zq a + zq b)%Qc.
Proof. intros. apply Qc_is_canon. rewrite this_plus, !this_zq. now rewrite inject_Z_plus. Qed.
Lemma zq_mul : forall a b, zq (a * b) = (zq a * zq b)%Qc.
Proof. intros. apply Qc_is_canon. rewrite this_mult, !this_zq. now rewrite inject_Z_mult. Qed.
Lemma zq_opp : forall a, zq (- a) = (- zq a)%Qc.
Proof. intros. apply Qc_is_canon. rewrite this_opp, !this_zq. now rewrite inject_Z_opp. Qed.
Lemma zq_sub : forall a b, zq (a - b) = (zq a - zq b)%Qc.
Proof. intros. unfold Z.sub. rewrite zq_add, zq_opp. ring. Qed.
Lemma zq_0 : zq 0 = 0%Qc. Proof. reflexivity. Qed.
Lemma zq_1 : zq 1 = 1%Qc. Proof. apply Qc_is_canon. reflexivity. Qed.
Lemma zq_le : forall a b, a <= b -> (zq a <= zq b)%Qc.
Proof. intros a b H. unfold Qcle. rewrite !this_zq. now rewrite <- Zle_Qle. Qed.
Lemma zq_lt : forall a b, a < b -> (zq a < zq b)%Qc.
Proof. intros a b H. unfold Qclt. rewrite !this_zq. now rewrite <- Zlt_Qlt. Qed.
Lemma zq_lt_inv : forall a b, (zq a < zq b)%Qc -> a < b.
Proof. intros a b H. unfold Qclt in H. rewrite !this_zq in H. now rewrite <- Zlt_Qlt in H. Qed.
Lemma zq_le_inv : forall a b, (zq a <= zq b)%Qc -> a <= b.
Proof. intros a b H. unfold Qcle in H. rewrite !this_zq in H. now rewrite <- Zle_Qle in H. Qed.

Lemma qfloor_le : forall a, (zq (qfloor a) <= a)%Qc.
Proof. intros a. unfold Qcle. rewrite this_zq. apply Qfloor_le. Qed.
Lemma qfloor_lt : forall a, (a < zq (qfloor a) + 1)%Qc.
Proof.
  intros a. unfold Qclt. rewrite this_plus, this_zq. setoid_replace (inject_Z (qfloor a) + this 1%Qc)%Q with (inject_Z (qfloor a + 1)).
  - apply Qlt_floor.
  - rewrite inject_Z_plus. reflexivity.
Qed.
Lemma qfloor_unique : forall a k, (zq k <= a)%Qc -> (a < zq k + 1)%Qc -> qfloor a = k.
Proof.
  intros a k H1 H2. pose proof (qfloor_le a). pose proof (qfloor_lt a).
  assert (A : (zq (qfloor a) < zq (k + 1))%Qc) by (rewrite zq_add, zq_1; qlra).
  assert (B : (zq k < zq (qfloor a + 1))%Qc) by (rewrite zq_add, zq_1; qlra).
  apply zq_lt_inv in A, B. lia.
Qed.

Lemma qltb_spec : forall a b, reflect (a < b)%Qc (qltb a b).
Proof.
  intros a b. unfold qltb. destruct (a ?= b)%Qc eqn:E; constructor.
  - apply Qceq_alt in E. subst. apply Qlt_irrefl.
  - now apply Qclt_alt.
  - apply Qcgt_alt in E. apply Qcle_not_lt. now apply Qclt_le_weak.
Qed.
Lemma qabs_cases : forall a, (a < 0 /\ qabs a = - a)%Qc \/ (0 <= a /\ qabs a = a)%Qc.
Proof.
  intros a. unfold qabs. destruct (a ?= 0)%Qc eqn:E.
  - apply Qceq_alt in E. subst. right. split; [apply Qcle_refl|reflexivity].
  - left. split; [now apply Qclt_alt|reflexivity].
  - right. split; [|reflexivity]. apply Qcgt_alt in E. now apply Qclt_le_weak.
Qed.
Lemma qabs_pos : forall a, (0 <= a)%Qc -> qabs a = a.
Proof. intros a H. destruct (qabs_cases a) as [[L _]|[_ E]]; auto. exfalso. qlra. Qed.
Lemma qabs_neg : forall a, (a <= 0)%Qc -> qabs a = (- a)%Qc.
Proof. intros a H. destruct (qabs_cases a) as [[_ E]|[L E]]; auto. rewrite E. qlra. Qed.
Lemma qabs_scale : forall a p, (0 <= p)%Qc -> (qabs a * p)%Qc = qabs (a * p)%Qc.
Proof.
  intros a p H. destruct (qabs_cases a) as [[L ->]|[L ->]].
  - rewrite qabs_neg; [ring|]. assert (K : (0 <= (- a) * p)%Qc). { replace 0%Qc with (0 * p)%Qc by ring. apply Qcmult_le_compat_r; auto. qlra. }
    replace (- a * p)%Qc with (- (a * p))%Qc in K by ring. qlra.
  - rewrite qabs_pos; auto. replace 0%Qc with (0 * p)%Qc by ring. now apply Qcmult_le_compat_r.
Qed.
