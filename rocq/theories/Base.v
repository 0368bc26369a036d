(** Shared list and arithmetic helpers used by the models and the proofs.
    Nothing here models code; it is the vocabulary of the other files. *)
From Coq Require Export ZArith List Lia Bool Arith Permutation Sorted.
From Coq Require Export ZifyBool ZifyNat Znumtheory.
Export ListNotations.
Open Scope Z_scope.

Ltac Zify.zify_post_hook ::= Z.div_mod_to_equations.

Ltac inv H := inversion H; subst; clear H.

Global Arguments Z.mul : simpl never.
Global Arguments Z.add : simpl never.
Global Arguments Z.sub : simpl never.
Global Arguments Z.pow : simpl never.

(** The integers [a, a+1, ..., a+n-1]. *)
Fixpoint zseq (a : Z) (n : nat) : list Z :=
  match n with O => [] | S n' => a :: zseq (a + 1) n' end.

(** The integers of the half-open interval [a, b). *)
Definition zrange (a b : Z) : list Z := zseq a (Z.to_nat (b - a)).

(** [n] terms of the arithmetic progression starting at [a] with step [s]. *)
Fixpoint zprog (a s : Z) (n : nat) : list Z :=
  match n with O => [] | S n' => a :: zprog (a + s) s n' end.

Definition zsum (l : list Z) : Z := fold_right Z.add 0 l.
Definition zprod (l : list Z) : Z := fold_right Z.mul 1 l.

Lemma zseq_In : forall n a x, In x (zseq a n) <-> a <= x < a + Z.of_nat n.
Proof.
  induction n as [|n IH]; intros a x; simpl.
  - lia.
  - rewrite IH. lia.
Qed.

Lemma zseq_length : forall n a, length (zseq a n) = n.
Proof. induction n; intros; simpl; auto. Qed.

Lemma zseq_nth : forall n a i d, (i < n)%nat -> nth i (zseq a n) d = a + Z.of_nat i.
Proof.
  induction n as [|n IH]; intros a i d Hi; [lia|].
  destruct i; simpl; [lia|]. rewrite IH; lia.
Qed.

Lemma zseq_NoDup : forall n a, NoDup (zseq a n).
Proof.
  induction n as [|n IH]; intros a; simpl; constructor; auto.
  rewrite zseq_In. lia.
Qed.

Lemma zseq_app : forall n m a, zseq a (n + m) = zseq a n ++ zseq (a + Z.of_nat n) m.
Proof.
  induction n as [|n IH]; intros m a; simpl.
  - f_equal. lia.
  - f_equal. rewrite IH. do 2 f_equal. lia.
Qed.

Lemma zrange_In : forall a b x, In x (zrange a b) <-> a <= x < b.
Proof. intros. unfold zrange. rewrite zseq_In. lia. Qed.

Lemma zrange_NoDup : forall a b, NoDup (zrange a b).
Proof. intros. apply zseq_NoDup. Qed.

Lemma zrange_length : forall a b, length (zrange a b) = Z.to_nat (b - a).
Proof. intros. apply zseq_length. Qed.

Lemma zrange_split : forall a m b, a <= m <= b -> zrange a b = zrange a m ++ zrange m b.
Proof.
  intros a m b H. unfold zrange.
  replace (Z.to_nat (b - a)) with (Z.to_nat (m - a) + Z.to_nat (b - m))%nat by lia.
  rewrite zseq_app. do 2 f_equal. lia.
Qed.

Lemma zrange_nil : forall a b, b <= a -> zrange a b = [].
Proof. intros. unfold zrange. replace (Z.to_nat (b - a)) with 0%nat by lia. reflexivity. Qed.

Lemma zrange_cons : forall a b, a < b -> zrange a b = a :: zrange (a + 1) b.
Proof.
  intros. unfold zrange.
  replace (Z.to_nat (b - a)) with (S (Z.to_nat (b - (a + 1)))) by lia. reflexivity.
Qed.

Lemma zrange_snoc : forall a b, a < b -> zrange a b = zrange a (b - 1) ++ [b - 1].
Proof.
  intros. rewrite (zrange_split a (b - 1) b) by lia. f_equal.
  rewrite zrange_cons by lia. f_equal. apply zrange_nil. lia.
Qed.

Lemma zprog_In : forall n a s x,
  In x (zprog a s n) <-> exists i, 0 <= i < Z.of_nat n /\ x = a + i * s.
Proof.
  induction n as [|n IH]; intros a s x; cbn [zprog In].
  - split; [tauto|]. intros [i [H _]]. lia.
  - rewrite IH. split.
    + intros [->|[i [Hi ->]]].
      * exists 0. lia.
      * exists (i + 1). split; [lia|ring].
    + intros [i [Hi ->]]. destruct (Z.eq_dec i 0) as [->|].
      * left. lia.
      * right. exists (i - 1). split; [lia|ring].
Qed.

Lemma zprog_length : forall n a s, length (zprog a s n) = n.
Proof. induction n; intros; simpl; auto. Qed.

Lemma zprog_NoDup : forall n a s, 0 < s -> NoDup (zprog a s n).
Proof.
  induction n as [|n IH]; intros a s Hs; cbn [zprog]; constructor; auto.
  rewrite zprog_In. intros [i [Hi He]]. nia.
Qed.

Lemma zsum_app : forall l1 l2, zsum (l1 ++ l2) = zsum l1 + zsum l2.
Proof. induction l1; intros; simpl; [ring|]. rewrite IHl1. ring. Qed.

Lemma zsum_perm : forall l1 l2, Permutation l1 l2 -> zsum l1 = zsum l2.
Proof. induction 1; simpl; lia. Qed.

Lemma zprod_app : forall l1 l2, zprod (l1 ++ l2) = zprod l1 * zprod l2.
Proof. induction l1; intros; simpl; [ring|]. rewrite IHl1. ring. Qed.

Lemma zprod_pos : forall l, Forall (fun e => 0 < e) l -> 0 < zprod l.
Proof. induction 1; simpl; [lia|]. nia. Qed.

Lemma zprod_nonneg : forall l, Forall (fun e => 0 <= e) l -> 0 <= zprod l.
Proof. induction 1; simpl; [lia|]. nia. Qed.

Lemma NoDup_Permutation_ext : forall (A : Type) (l1 l2 : list A),
  NoDup l1 -> NoDup l2 -> (forall x, In x l1 <-> In x l2) -> Permutation l1 l2.
Proof. intros. now apply NoDup_Permutation. Qed.

Lemma NoDup_app_intro : forall (A : Type) (l1 l2 : list A),
  NoDup l1 -> NoDup l2 -> (forall x, In x l1 -> ~ In x l2) -> NoDup (l1 ++ l2).
Proof.
  induction l1 as [|a l1 IH]; intros l2 H1 H2 Hd; simpl; auto.
  inversion H1; subst. constructor.
  - rewrite in_app_iff. intros [H|H]; [auto|]. apply (Hd a); simpl; auto.
  - apply IH; auto. intros x Hx. apply Hd. now right.
Qed.

Lemma NoDup_flat_map : forall (A B : Type) (f : A -> list B) (l : list A),
  NoDup l -> (forall a, In a l -> NoDup (f a)) ->
  (forall a b x, In a l -> In b l -> In x (f a) -> In x (f b) -> a = b) ->
  NoDup (flat_map f l).
Proof.
  induction l as [|a l IH]; intros Hl Hf Hd; simpl; [constructor|].
  inversion Hl; subst. apply NoDup_app_intro.
  - apply Hf. now left.
  - apply IH; auto.
    + intros; apply Hf; now right.
    + intros a0 b x Ha Hb. apply Hd; now right.
  - intros x Hx Hx'. apply in_flat_map in Hx'. destruct Hx' as [b [Hb Hxb]].
    assert (a = b) by (apply (Hd a b x); simpl; auto). subst. contradiction.
Qed.

Lemma NoDup_map_inj : forall (A B : Type) (f : A -> B) (l : list A),
  NoDup l -> (forall a b, In a l -> In b l -> f a = f b -> a = b) -> NoDup (map f l).
Proof.
  induction l as [|a l IH]; intros Hl Hf; simpl; [constructor|].
  inversion Hl; subst. constructor.
  - rewrite in_map_iff. intros [b [Hb Hin]]. assert (b = a) by (apply Hf; simpl; auto).
    subst. contradiction.
  - apply IH; auto. intros; apply Hf; simpl; auto.
Qed.

(** Cartesian product of lists of integers: all vectors whose components are drawn from the lists. *)
Fixpoint cart (ls : list (list Z)) : list (list Z) :=
  match ls with
  | [] => [[]]
  | l :: rest => flat_map (fun x => map (cons x) (cart rest)) l
  end.

Lemma cart_In : forall ls v, In v (cart ls) <-> Forall2 (fun l x => In x l) ls v.
Proof.
  induction ls as [|l ls IH]; intros v; cbn [cart].
  - simpl. split.
    + intros [<-|[]]. constructor.
    + intros H. inv H. now left.
  - rewrite in_flat_map. split.
    + intros [x [Hx Hv]]. apply in_map_iff in Hv. destruct Hv as [w [<- Hw]].
      constructor; auto. now apply IH.
    + intros H. inv H. exists y. split; auto. apply in_map_iff. exists l'. split; auto. now apply IH.
Qed.

Lemma cart_NoDup : forall ls, Forall (@NoDup Z) ls -> NoDup (cart ls).
Proof.
  induction 1 as [|l ls Hl _ IH]; cbn [cart].
  - repeat constructor. simpl. tauto.
  - apply NoDup_flat_map; auto.
    + intros a _. apply NoDup_map_inj; auto. intros u v _ _ E. now injection E.
    + intros a b x _ _ Ha Hb. apply in_map_iff in Ha. apply in_map_iff in Hb.
      destruct Ha as [u [<- _]]. destruct Hb as [w [E _]]. now injection E.
Qed.

Lemma cart_length : forall ls,
  Z.of_nat (length (cart ls)) = zprod (map (fun l => Z.of_nat (length l)) ls).
Proof.
  induction ls as [|l ls IH]; cbn [cart map]; [reflexivity|].
  change (zprod (Z.of_nat (length l) :: map (fun l0 => Z.of_nat (length l0)) ls))
    with (Z.of_nat (length l) * zprod (map (fun l0 => Z.of_nat (length l0)) ls)).
  rewrite <- IH. clear IH. induction l as [|a l IHl]; cbn [flat_map length]; [lia|].
  rewrite app_length, map_length. nia.
Qed.

(** Replace the [i]-th element (no effect out of range). *)
Fixpoint upd {A : Type} (l : list A) (i : nat) (v : A) : list A :=
  match l, i with
  | [], _ => []
  | _ :: r, O => v :: r
  | x :: r, S i' => x :: upd r i' v
  end.

Lemma upd_length : forall A (l : list A) i v, length (upd l i v) = length l.
Proof. induction l; destruct i; simpl; intros; auto. Qed.

Lemma nth_upd_same : forall A (l : list A) i v d, (i < length l)%nat -> nth i (upd l i v) d = v.
Proof. induction l; destruct i; simpl; intros; try lia; auto. apply IHl. lia. Qed.

Lemma nth_upd_other : forall A (l : list A) i j v d, i <> j -> nth j (upd l i v) d = nth j l d.
Proof.
  induction l; destruct i; simpl; intros; auto.
  - destruct j; [lia|reflexivity].
  - destruct j; auto.
Qed.

Fixpoint map2 {A B C : Type} (f : A -> B -> C) (a : list A) (b : list B) : list C :=
  match a, b with x :: a', y :: b' => f x y :: map2 f a' b' | _, _ => [] end.

Lemma map2_length : forall A B C (f : A -> B -> C) a b,
  length a = length b -> length (map2 f a b) = length a.
Proof. induction a; destruct b; simpl; intros; try lia. rewrite IHa; lia. Qed.

Lemma map2_nth : forall A B C (f : A -> B -> C) a b i da db dc,
  (i < length a)%nat -> (i < length b)%nat -> nth i (map2 f a b) dc = f (nth i a da) (nth i b db).
Proof.
  induction a; destruct b; destruct i; simpl; intros; try lia; auto.
  apply IHa; lia.
Qed.

Lemma Forall2_nth_iff : forall A B (R : A -> B -> Prop) da db a b,
  Forall2 R a b <->
  (length a = length b /\ forall i, (i < length a)%nat -> R (nth i a da) (nth i b db)).
Proof.
  induction a as [|x a IH]; intros [|y b]; simpl; split; intros H; try (inv H; simpl in *; lia).
  - split; auto. intros; lia.
  - constructor.
  - inv H. apply IH in H5. destruct H5 as [H1 H2]. split; [lia|].
    intros [|i] Hi; auto. apply H2. lia.
  - destruct H as [H1 H2]. constructor.
    + apply (H2 0%nat). lia.
    + apply IH. split; [lia|]. intros i Hi. apply (H2 (S i)). lia.
Qed.

Lemma nth_ext_Z : forall (a b : list Z), length a = length b ->
  (forall i, (i < length a)%nat -> nth i a 0 = nth i b 0) -> a = b.
Proof. intros. apply (nth_ext a b 0 0); auto. Qed.

Lemma Forall2_length : forall (A B : Type) (R : A -> B -> Prop) a b, Forall2 R a b -> length a = length b.
Proof. induction 1; simpl; auto. Qed.
