(** Proofs about combination schemes. *)
From Verif Require Import Base TensorModel TensorProofs LevelSetsModel LevelSetsProofs DofModel DofProofs CombiSchemeModel.

(** * Alternating binomial sums *)

Definition wcoef (j : nat) (p : Z) : Z := signPow p * binom j (Z.to_nat p).
Definition psum (f : Z -> Z) (q : Z) : Z := zsum (map f (zrange 0 (q + 1))).

Lemma signPow_succ : forall p, signPow (p + 1) = - signPow p.
Proof.
  intros. unfold signPow. replace (p + 1) with (Z.succ p) by lia. rewrite Z.even_succ, <- Z.negb_even.
  destruct (Z.even p); reflexivity.
Qed.

Lemma binom_0 : forall n, binom n 0 = 1.
Proof. destruct n; reflexivity. Qed.

Lemma binom_big : forall n k, (n < k)%nat -> binom n k = 0.
Proof.
  induction n as [|n IH]; intros [|k] H; try lia; auto. cbn [binom]. rewrite !IH by lia. reflexivity.
Qed.

Lemma psum_succ : forall f q, -1 <= q -> psum f (q + 1) = psum f q + f (q + 1).
Proof.
  intros f q H. unfold psum. rewrite (zrange_snoc 0 (q + 1 + 1)) by lia.
  replace (q + 1 + 1 - 1) with (q + 1) by lia. rewrite map_app, zsum_app. cbn [map]. rewrite zsum_cons, zsum_nil. lia.
Qed.

Lemma psum_neg : forall f, psum f (-1) = 0.
Proof. reflexivity. Qed.

Lemma psum_w : forall j q, 0 <= q -> psum (wcoef (S j)) q = wcoef j q.
Proof.
  intros j q H. replace q with (Z.of_nat (Z.to_nat q)) by lia. clear H. induction (Z.to_nat q) as [|n IH].
  - unfold wcoef. simpl. rewrite binom_0. unfold psum. simpl. rewrite zsum_cons, zsum_nil. simpl. reflexivity.
  - replace (Z.of_nat (S n)) with (Z.of_nat n + 1) by lia. rewrite psum_succ, IH by lia.
    unfold wcoef. rewrite signPow_succ. rewrite !Z2Nat.inj_add, !Nat2Z.id by lia.
    replace (n + Z.to_nat 1)%nat with (S n) by lia. cbn [binom]. ring.
Qed.

Lemma psum_w0 : forall q, 0 <= q -> psum (wcoef 0) q = 1.
Proof.
  intros q H. replace q with (Z.of_nat (Z.to_nat q)) by lia. clear H. induction (Z.to_nat q) as [|n IH]; [reflexivity|].
  replace (Z.of_nat (S n)) with (Z.of_nat n + 1) by lia. rewrite psum_succ, IH by lia.
  unfold wcoef. replace (Z.to_nat (Z.of_nat n + 1)) with (S n) by lia. rewrite (binom_big 0 (S n)) by lia. ring.
Qed.

Fixpoint iterPsum (d : nat) (f : Z -> Z) : Z -> Z := match d with O => f | S d' => psum (iterPsum d' f) end.

Lemma psum_ext : forall f g q, (forall i, 0 <= i <= q -> f i = g i) -> psum f q = psum g q.
Proof. intros. unfold psum. apply zsum_map_ext. intros x Hx. apply zrange_In in Hx. apply H. lia. Qed.

Lemma iterPsum_w : forall i j q, 0 <= q -> iterPsum i (wcoef (i + j)) q = wcoef j q.
Proof.
  induction i as [|i IH]; intros j q H; auto. cbn [iterPsum].
  rewrite (psum_ext _ (wcoef (S j))).
  - now apply psum_w.
  - intros k Hk. replace (S i + j)%nat with (i + S j)%nat by lia. apply IH. lia.
Qed.

Lemma iterPsum_one : forall d q, 0 <= q -> iterPsum (S d) (wcoef d) q = 1.
Proof.
  intros d q H. cbn [iterPsum]. rewrite (psum_ext _ (wcoef 0)).
  - now apply psum_w0.
  - intros i Hi. replace d with (d + 0)%nat at 2 by lia. apply iterPsum_w. lia.
Qed.

(** * Vectors above [ms] exceeding it by at most [q] in total *)

Fixpoint simplex (ms : list Z) (q : Z) : list (list Z) :=
  match ms with
  | [] => [[]]
  | m :: r => flat_map (fun i => map (cons (m + i)) (simplex r (q - i))) (zrange 0 (q + 1))
  end.

Lemma simplex_In : forall ms q v, 0 <= q ->
  (In v (simplex ms q) <-> Forall2 Z.le ms v /\ zsum v - zsum ms <= q).
Proof.
  induction ms as [|m ms IH]; intros q v Hq; cbn [simplex].
  - split.
    + intros [<-|[]]. split; [constructor|]. rewrite zsum_nil. lia.
    + intros [F _]. inv F. now left.
  - rewrite in_flat_map. split.
    + intros [i [Hi Hv]]. apply zrange_In in Hi. apply in_map_iff in Hv as [w [<- Hw]].
      apply IH in Hw; [|lia]. destruct Hw as [F E]. split; [constructor; auto; lia|]. rewrite !zsum_cons. lia.
    + intros [F E]. inv F. match goal with H : Forall2 _ ms ?w |- _ => rename H into F; rename w into v' end.
      rewrite !zsum_cons in E.
      assert (0 <= zsum v' - zsum ms).
      { clear -F. induction F; rewrite ?zsum_nil, ?zsum_cons; lia. }
      exists (y - m). split; [apply zrange_In; lia|]. apply in_map_iff. exists v'. split; [f_equal; lia|].
      apply IH; [lia|]. split; auto. lia.
Qed.

Lemma simplex_NoDup : forall ms q, NoDup (simplex ms q).
Proof.
  induction ms as [|m ms IH]; intros q; cbn [simplex].
  - repeat constructor. simpl. tauto.
  - apply NoDup_flat_map.
    + apply zrange_NoDup.
    + intros. apply NoDup_map_inj; auto. intros a' b' _ _ E. now injection E.
    + intros a b x _ _ Ha Hb. apply in_map_iff in Ha as [u [<- _]]. apply in_map_iff in Hb as [u' [E _]].
      injection E. intros. lia.
Qed.

Lemma rev_range : forall q, 0 <= q -> Permutation (map (fun i => q - i) (zrange 0 (q + 1))) (zrange 0 (q + 1)).
Proof.
  intros q H. apply NoDup_Permutation.
  - apply NoDup_map_inj; [apply zrange_NoDup|]. intros. lia.
  - apply zrange_NoDup.
  - intros x. rewrite in_map_iff, zrange_In. split.
    + intros [i [<- Hi]]. apply zrange_In in Hi. lia.
    + intros Hx. exists (q - x). split; [lia|]. apply zrange_In. lia.
Qed.

Lemma simplex_sum : forall f ms q, 0 <= q ->
  zsum (map (fun v => f (q - (zsum v - zsum ms))) (simplex ms q)) = iterPsum (length ms) f q.
Proof.
  intros f. induction ms as [|m ms IH]; intros q Hq; cbn [simplex length iterPsum].
  - cbn [map]. rewrite zsum_cons, !zsum_nil, Z.add_0_r. f_equal. lia.
  - rewrite zsum_flat_map. unfold psum.
    transitivity (zsum (map (iterPsum (length ms) f) (map (fun i => q - i) (zrange 0 (q + 1))))).
    + rewrite map_map. apply zsum_map_ext. intros i Hi. apply zrange_In in Hi. rewrite <- IH by lia. rewrite map_map.
      apply zsum_map_ext. intros v _. f_equal. rewrite !zsum_cons. lia.
    + apply zsum_perm, Permutation_map, rev_range. auto.
Qed.

(** * Comparison operators *)

Lemma vgeb_spec : forall a b, length a = length b -> (vgeb a b = true <-> Forall2 Z.le b a).
Proof.
  unfold vgeb. induction a as [|x a IH]; intros [|y b] L; simpl in L; try lia; cbn [vall].
  - split; constructor.
  - rewrite andb_true_iff, Z.leb_le, IH by lia. split; [intros []; constructor; auto|intros H; inv H; auto].
Qed.

Lemma vleb_spec : forall a b, length a = length b -> (vleb a b = true <-> Forall2 Z.le a b).
Proof. intros. apply (vgeb_spec b a). auto. Qed.

(** Sum of the coefficients of the grids dominating [k]. *)
Definition coverage (spaces : list (list Z)) (coeffs : list Z) (k : list Z) : Z :=
  zsum (map snd (filter (fun p => vgeb (fst p) k) (combine spaces coeffs))).

Lemma coverage_map : forall f spaces k, coverage spaces (map f spaces) k = zsum (map f (filter (fun l => vgeb l k) spaces)).
Proof.
  unfold coverage. induction spaces as [|s sp IH]; intros k; auto. cbn [map combine filter fst].
  destruct (vgeb s k); cbn [map snd]; rewrite ?zsum_cons, IH; auto.
Qed.

Lemma coverage_app : forall s1 c1 s2 c2 k, length s1 = length c1 ->
  coverage (s1 ++ s2) (c1 ++ c2) k = coverage s1 c1 k + coverage s2 c2 k.
Proof.
  unfold coverage. induction s1 as [|s s1 IH]; intros [|c c1] s2 c2 k L; simpl in L; try lia; [reflexivity|].
  cbn [app combine filter fst]. destruct (vgeb s k); cbn [map snd]; rewrite ?zsum_cons, IH by lia; lia.
Qed.

Lemma coverage_zeros : forall sp (g : list Z -> Z) k, (forall s, In s sp -> g s = 0) -> coverage sp (map g sp) k = 0.
Proof.
  intros. rewrite coverage_map. apply zsum_map_0. intros x Hx. apply filter_In in Hx. apply H. tauto.
Qed.

(** * Dummy dimensions *)

Fixpoint weave (mask : list bool) (red dum : list Z) : list Z :=
  match mask with
  | [] => []
  | true :: m' => match dum with x :: d' => x :: weave m' red d' | [] => [] end
  | false :: m' => match red with x :: r' => x :: weave m' r' dum | [] => [] end
  end.

Fixpoint selectDummies (mask : list bool) (v : list Z) : list Z :=
  match mask, v with
  | b :: m', x :: v' => if b then x :: selectDummies m' v' else selectDummies m' v'
  | _, _ => []
  end.

Fixpoint countFalse (m : list bool) : nat :=
  match m with [] => 0 | true :: m' => countFalse m' | false :: m' => S (countFalse m') end.

Lemma reinsert_weave_gen : forall mask pre v vals, length v = countFalse mask -> (countTrue mask <= length vals)%nat ->
  fold_left (fun w p => insertAt (fst p) (snd p) w) (combine (dummyDims mask (length pre)) vals) (pre ++ v)
  = pre ++ weave mask v vals.
Proof.
  induction mask as [|[|] mask IH]; intros pre v vals Lv Lx; cbn [dummyDims weave countTrue countFalse] in *.
  - destruct v; [|simpl in Lv; lia]. reflexivity.
  - destruct vals as [|x vals]; [simpl in Lx; lia|]. cbn [combine fold_left fst snd].
    assert (E : insertAt (length pre) x (pre ++ v) = (pre ++ [x]) ++ v).
    { unfold insertAt. rewrite firstn_app, Nat.sub_diag, firstn_all, firstn_O, app_nil_r.
      rewrite skipn_app, Nat.sub_diag, skipn_all. cbn [skipn app]. now rewrite <- app_assoc. }
    rewrite E. replace (S (length pre)) with (length (pre ++ [x])) by (rewrite app_length; simpl; lia).
    rewrite IH; [|auto|simpl in Lx; lia]. now rewrite <- app_assoc.
  - destruct v as [|y v]; [simpl in Lv; lia|].
    replace (pre ++ y :: v) with ((pre ++ [y]) ++ v) by (now rewrite <- app_assoc).
    replace (S (length pre)) with (length (pre ++ [y])) by (rewrite app_length; simpl; lia).
    rewrite IH; [|simpl in Lv; lia|auto]. now rewrite <- app_assoc.
Qed.

Lemma reinsert_weave : forall mask v vals, length v = countFalse mask -> (countTrue mask <= length vals)%nat ->
  reinsert (dummyDims mask 0) vals v = weave mask v vals.
Proof. intros. exact (reinsert_weave_gen mask [] v vals H H0). Qed.

Lemma upd_app_len : forall (A : Type) (pre : list A) x v r, upd (pre ++ x :: v) (length pre) r = pre ++ r :: v.
Proof. induction pre; simpl; intros; auto. now rewrite IHpre. Qed.

Lemma newLmin_weave_gen : forall mask pre w vals, length w = length mask -> (countTrue mask <= length vals)%nat ->
  fold_left (fun w p => upd w (fst p) (snd p)) (combine (dummyDims mask (length pre)) vals) (pre ++ w)
  = pre ++ weave mask (eraseDummies mask w) vals.
Proof.
  induction mask as [|[|] mask IH]; intros pre w vals Lw Lx; cbn [dummyDims weave countTrue length] in *.
  - destruct w; [|simpl in Lw; lia]. reflexivity.
  - destruct w as [|y w]; [simpl in Lw; lia|]. destruct vals as [|x vals]; [simpl in Lx; lia|].
    cbn [combine fold_left fst snd eraseDummies]. rewrite upd_app_len.
    replace (pre ++ x :: w) with ((pre ++ [x]) ++ w) by (now rewrite <- app_assoc).
    replace (S (length pre)) with (length (pre ++ [x])) by (rewrite app_length; simpl; lia).
    rewrite IH; [|simpl in Lw; lia|simpl in Lx; lia]. now rewrite <- app_assoc.
  - destruct w as [|y w]; [simpl in Lw; lia|]. cbn [eraseDummies].
    replace (pre ++ y :: w) with ((pre ++ [y]) ++ w) by (now rewrite <- app_assoc).
    replace (S (length pre)) with (length (pre ++ [y])) by (rewrite app_length; simpl; lia).
    rewrite IH; [|simpl in Lw; lia|auto]. now rewrite <- app_assoc.
Qed.

Lemma newLmin_weave : forall mask lmax c, length lmax = length mask ->
  newLmin (dummyDims mask 0) lmax c = weave mask (eraseDummies mask (map (fun x => x - c) lmax)) lmax.
Proof.
  intros. unfold newLmin. apply (newLmin_weave_gen mask [] (map (fun x => x - c) lmax) lmax).
  - now rewrite map_length.
  - rewrite H. apply countTrue_le.
Qed.

Lemma eraseDummies_length : forall mask v, length v = length mask -> length (eraseDummies mask v) = countFalse mask.
Proof. induction mask as [|[|] m IH]; intros [|x v] L; simpl in *; try lia; auto. Qed.

Lemma eraseDummies_map : forall f mask v, eraseDummies mask (map f v) = map f (eraseDummies mask v).
Proof. induction mask as [|[|] m IH]; intros [|x v]; simpl; auto. now rewrite IH. Qed.

Lemma selectDummies_length : forall mask v, length v = length mask -> length (selectDummies mask v) = countTrue mask.
Proof. induction mask as [|[|] m IH]; intros [|x v] L; simpl in *; try lia; auto. Qed.

Lemma weave_split : forall mask v, length v = length mask -> weave mask (eraseDummies mask v) (selectDummies mask v) = v.
Proof. induction mask as [|[|] m IH]; intros [|x v] L; simpl in *; try lia; auto; rewrite IH by lia; auto. Qed.

Lemma weave_vgeb : forall mask a b x y, length a = countFalse mask -> length b = countFalse mask ->
  (countTrue mask <= length x)%nat -> (countTrue mask <= length y)%nat ->
  vgeb (weave mask a x) (weave mask b y) = vgeb a b && vgeb (firstn (countTrue mask) x) (firstn (countTrue mask) y).
Proof.
  unfold vgeb. induction mask as [|[|] m IH]; intros a b x y La Lb Lx Ly; cbn [weave countTrue countFalse] in *.
  - destruct a, b; simpl in *; try lia; reflexivity.
  - destruct x as [|x0 x], y as [|y0 y]; simpl in Lx, Ly; try lia. cbn [firstn vall].
    rewrite IH by (auto; lia). destruct (y0 <=? x0); destruct (vall Z.leb b a); reflexivity.
  - destruct a as [|a0 a], b as [|b0 b]; simpl in La, Lb; try lia. cbn [vall].
    rewrite IH by (auto; lia). now rewrite andb_assoc.
Qed.

Lemma weave_sum : forall mask a x, length a = countFalse mask -> (countTrue mask <= length x)%nat ->
  zsum (weave mask a x) = zsum a + zsum (firstn (countTrue mask) x).
Proof.
  induction mask as [|[|] m IH]; intros a x La Lx; cbn [weave countTrue countFalse] in *.
  - destruct a; [|simpl in La; lia]. reflexivity.
  - destruct x as [|x0 x]; [simpl in Lx; lia|]. cbn [firstn]. rewrite !zsum_cons, IH by (simpl in Lx; auto; lia). lia.
  - destruct a as [|a0 a]; [simpl in La; lia|]. rewrite !zsum_cons, IH by (simpl in La; auto; lia). lia.
Qed.

Lemma weave_length : forall mask a x, length a = countFalse mask -> (countTrue mask <= length x)%nat ->
  length (weave mask a x) = length mask.
Proof.
  induction mask as [|[|] m IH]; intros a x La Lx; cbn [weave countTrue countFalse length] in *; auto.
  - destruct x as [|x0 x]; simpl in Lx; [lia|]. simpl. rewrite IH; lia.
  - destruct a as [|a0 a]; simpl in La; [lia|]. simpl. rewrite IH; lia.
Qed.

Lemma weave_inj : forall mask a b x, length a = countFalse mask -> length b = countFalse mask ->
  (countTrue mask <= length x)%nat -> weave mask a x = weave mask b x -> a = b.
Proof.
  induction mask as [|[|] m IH]; intros a b x La Lb Lx E; cbn [weave countTrue countFalse] in *.
  - destruct a, b; simpl in *; try lia. auto.
  - destruct x as [|x0 x]; simpl in Lx; [lia|]. injection E. intros. eapply IH; eauto. lia.
  - destruct a as [|a0 a], b as [|b0 b]; simpl in La, Lb; try lia. injection E. intros E1 ->. f_equal.
    eapply (IH a b x); eauto; lia.
Qed.

Lemma effDim_count : forall lmin lmax, length lmin = length lmax ->
  effDim lmin lmax = countFalse (dummyMask lmin lmax).
Proof.
  unfold effDim, dummyMask. intros lmin lmax L.
  assert (G : forall a b, length a = length b ->
    (length (filter (fun d : Z => (d =? 0)%Z) (map2 Z.sub b a)) + countFalse (map2 (fun a b => (b - a =? 0)%Z) a b)
     = length b)%nat).
  { induction a as [|x a IH]; intros [|y b] H; simpl in H; try lia; [reflexivity|].
    cbn [map2 filter]. specialize (IH b ltac:(lia)). destruct (y - x =? 0); simpl; lia. }
  specialize (G lmin lmax L). lia.
Qed.

Lemma dummyMask_length : forall lmin lmax, length lmin = length lmax -> length (dummyMask lmin lmax) = length lmax.
Proof. intros. unfold dummyMask. rewrite map2_length; lia. Qed.

Lemma allEqual_min : forall l i, allEqual l = true -> (i < length l)%nat -> nth i l 0 = minElement l.
Proof.
  intros l i H Hi.
  assert (A : forall l x, allEqual (x :: l) = true -> Forall (fun y => y = x) l).
  { induction l0 as [|y l0 IH]; intros x E; [constructor|].
    change (allEqual (x :: y :: l0)) with ((x =? y) && allEqual (y :: l0)) in E. apply andb_true_iff in E as [E1 E2].
    assert (x = y) by lia. subst y. constructor; auto. }
  destruct l as [|x l]; [simpl in Hi; lia|]. specialize (A l x H). rewrite Forall_forall in A.
  pose proof (minElement_In (x :: l) ltac:(discriminate)) as M.
  assert (minElement (x :: l) = x) as -> by (destruct M as [M|M]; [auto|apply A; auto]).
  destruct i; [reflexivity|]. cbn [nth]. apply A. apply nth_In. simpl in Hi. lia.
Qed.

Lemma schemeC_min : forall cv, cv <> [] -> schemeC cv (length cv) = minElement cv.
Proof.
  intros cv H. unfold schemeC. destruct (allEqual cv) eqn:E; auto.
  apply allEqual_min; auto. destruct cv; [congruence|]. simpl. lia.
Qed.

(** * Selecting the diagonals *)

Lemma diagonals_filter : forall levels lmin n a b,
  spacesOnDiagonals levels lmin n (zrange a b)
  = filter (fun l => vgeb l lmin && ((a <=? n - levelSum l) && (n - levelSum l <? b))) levels.
Proof.
  intros levels lmin n a b. unfold spacesOnDiagonals. induction levels as [|l ls IH]; auto.
  cbn [flat_map filter]. rewrite IH. clear IH.
  assert (E : flat_map (fun p => if vgeb l lmin && (levelSum l =? n - p) then [l] else []) (zrange a b)
            = if vgeb l lmin && ((a <=? n - levelSum l) && (n - levelSum l <? b)) then [l] else []).
  { destruct (vgeb l lmin); cbn [andb].
    - set (s := levelSum l). destruct (Z_le_gt_dec a (n - s)) as [Ha|Ha].
      + destruct (Z_lt_le_dec (n - s) b) as [Hb|Hb].
        * rewrite (zrange_split a (n - s) b) by lia. rewrite (zrange_cons (n - s)) by lia.
          rewrite flat_map_app. cbn [flat_map].
          assert (Z1 : forall x y, (forall p, x <= p < y -> s <> n - p) ->
             flat_map (fun p => if s =? n - p then [l] else []) (zrange x y) = []).
          { intros x y Hxy. assert (forall L, (forall p, In p L -> s <> n - p) ->
              flat_map (fun p => if s =? n - p then [l] else []) L = []).
            { induction L as [|p L IHL]; intros HL; auto. cbn [flat_map].
              destruct (Z.eqb_spec s (n - p)); [exfalso; apply (HL p); simpl; auto|].
              cbn [app]. apply IHL. intros; apply HL; simpl; auto. }
            apply H. intros p Hp. apply zrange_In in Hp. auto. }
          rewrite !Z1 by (intros; lia). destruct (Z.eqb_spec s (n - (n - s))); [|lia].
          destruct (Z.leb_spec a (n - s)); [|lia]. destruct (Z.ltb_spec (n - s) b); [|lia]. reflexivity.
        * destruct (Z.leb_spec a (n - s)); [|lia]. destruct (Z.ltb_spec (n - s) b); [lia|]. cbn [andb].
          assert (forall L, (forall p, In p L -> p < b) ->
              flat_map (fun p => if s =? n - p then [l] else []) L = []).
          { induction L as [|p L IHL]; intros HL; auto. cbn [flat_map].
            destruct (Z.eqb_spec s (n - p)); [specialize (HL p ltac:(simpl; auto)); lia|].
            cbn [app]. apply IHL. intros; apply HL; simpl; auto. }
          apply H1. intros p Hp. apply zrange_In in Hp. lia.
      + destruct (Z.leb_spec a (n - s)); [lia|]. cbn [andb].
        assert (forall L, (forall p, In p L -> a <= p) ->
            flat_map (fun p => if s =? n - p then [l] else []) L = []).
        { induction L as [|p L IHL]; intros HL; auto. cbn [flat_map].
          destruct (Z.eqb_spec s (n - p)); [specialize (HL p ltac:(simpl; auto)); lia|].
          cbn [app]. apply IHL. intros; apply HL; simpl; auto. }
        apply H0. intros p Hp. apply zrange_In in Hp. lia.
    - induction (zrange a b); auto. }
  rewrite E. destruct (vgeb l lmin && _); reflexivity.
Qed.

Lemma zsum_filter_ite : forall (A : Type) (f : A -> Z) (p : A -> bool) l,
  zsum (map f (filter p l)) = zsum (map (fun x => if p x then f x else 0) l).
Proof.
  induction l as [|x l IH]; auto. cbn [filter map]. destruct (p x); cbn [map]; rewrite ?zsum_cons, IH; auto; lia.
Qed.

Lemma filter_map_comm : forall (A B : Type) (g : A -> B) (p : B -> bool) l,
  filter p (map g l) = map g (filter (fun x => p (g x)) l).
Proof. induction l; simpl; auto. destruct (p (g a)); simpl; now rewrite IHl. Qed.

Lemma filter_filter : forall (A : Type) (p q : A -> bool) l, filter p (filter q l) = filter (fun x => q x && p x) l.
Proof. induction l; simpl; auto. destruct (q a); simpl; auto. destruct (p a); rewrite ?IHl; auto. Qed.

(** * The reduced classical scheme: no dummy dimensions *)

Definition vmax (a b : list Z) : list Z := map2 Z.max a b.

Lemma vmax_le : forall a b v, length a = length b ->
  (Forall2 Z.le (vmax a b) v <-> Forall2 Z.le a v /\ Forall2 Z.le b v).
Proof.
  unfold vmax. induction a as [|x a IH]; intros [|y b] v L; simpl in L; try lia; cbn [map2].
  - split; intros H; [inv H; split; constructor|]. destruct H as [H _]. inv H. constructor.
  - split.
    + intros H. inv H. apply IH in H4; [|lia]. destruct H4. split; constructor; auto; lia.
    + intros [H1 H2]. inv H1. inv H2. constructor; [lia|]. apply IH; auto; lia.
Qed.

Lemma vmax_sum : forall a b, length a = length b -> zsum (vmax a b) = zsum b + excess a b.
Proof.
  unfold vmax, excess. induction a as [|x a IH]; intros [|y b] L; simpl in L; try lia; cbn [map2]; [reflexivity|].
  rewrite !zsum_cons, IH by lia. lia.
Qed.

Lemma excess_above : forall v r, length v = length r -> Forall2 Z.le r v -> excess v r = zsum v - zsum r.
Proof.
  unfold excess. intros v r L F. clear L. induction F; cbn [map2]; rewrite ?zsum_nil, ?zsum_cons; lia.
Qed.

Lemma truncated_NoDup : forall lmax lmin, NoDup (truncatedLevels lmax lmin).
Proof. intros. apply lexsorted_NoDup. unfold truncatedLevels. apply truncRec_sorted. Qed.

Lemma reduced_unity : forall lmax lmin k, lmax <> [] -> Forall2 Z.le lmin lmax -> Forall (fun x => 1 <= x) lmin ->
  length k = length lmax ->
  let c := minElement (map2 Z.sub lmax lmin) in
  let lr := map (fun x => x - c) lmax in
  excess k lr <= c ->
  zsum (map (fun v => if vgeb v lr && ((0 <=? zsum lr + c - zsum v) && (zsum lr + c - zsum v <? Z.of_nat (length lmax)))
                         && vgeb v k
                      then wcoef (length lmax - 1) (zsum lr + c - zsum v) else 0)
            (truncatedLevels lmax lmin)) = 1.
Proof.
  intros lmax lmin k Hne F P Lk c lr Hk.
  assert (Llr : length lr = length lmax) by apply map_length.
  assert (Hc : 0 <= c) by (apply minElement_diff_nonneg; auto).
  assert (Plr : Forall (fun x => 1 <= x) lr).
  { unfold lr, c. apply Forall_forall. intros x Hx. apply in_map_iff in Hx as [y [<- Hy]].
    apply (In_nth _ _ 0) in Hy as [i [Hi <-]].
    assert (LL : length lmin = length lmax) by (eapply Forall2_length; eauto).
    pose proof (minElement_le (map2 Z.sub lmax lmin) (nth i lmax 0 - nth i lmin 0)) as M.
    specialize (M ltac:(rewrite <- (map2_nth _ _ _ Z.sub lmax lmin i 0 0 0) by lia; apply nth_In; rewrite map2_length; lia)).
    rewrite Forall_forall in P. specialize (P (nth i lmin 0) ltac:(apply nth_In; lia)). lia. }
  set (m := vmax k lr). set (Q := c - excess k lr).
  assert (Lm : length m = length lmax) by (unfold m, vmax; rewrite map2_length; lia).
  assert (Sm : zsum m = zsum lr + excess k lr) by (apply vmax_sum; lia).
  transitivity (zsum (map (fun v => wcoef (length lmax - 1) (Q - (zsum v - zsum m))) (simplex m Q))).
  - rewrite (zsum_map_ext _ _ (fun v => if vgeb v m && (zsum v - zsum m <=? Q)
                                      then wcoef (length lmax - 1) (Q - (zsum v - zsum m)) else 0)).
    + rewrite <- zsum_filter_ite. apply zsum_perm. apply Permutation_map. apply NoDup_Permutation.
      * apply NoDup_filter, truncated_NoDup.
      * apply simplex_NoDup.
      * intros v. rewrite filter_In, simplex_In by (unfold Q; lia). rewrite andb_true_iff, Z.leb_le.
        rewrite truncated_closed_form by auto. split.
        -- intros [[L _] [V S]]. apply vgeb_spec in V; [|lia]. auto.
        -- intros [V S]. assert (Lv : length v = length lmax) by (apply Forall2_length in V; lia).
           split; [|split; auto; apply vgeb_spec; auto; lia].
           apply vmax_le in V as [V1 V2]; [|lia]. split; auto. split.
           ++ clear -V2 Plr. induction V2; constructor; inv Plr; auto. lia.
           ++ fold c. fold lr. rewrite excess_above by (auto; lia). unfold Q in S. lia.
    + intros v Hv. apply truncated_closed_form in Hv as (Lv & _ & E); auto. fold c in E. fold lr in E.
      assert (Z1 : Q - (zsum v - zsum m) = zsum lr + c - zsum v) by (unfold Q; lia). rewrite Z1.
      assert (V : vgeb v m = vgeb v lr && vgeb v k).
      { apply eq_true_iff_eq. rewrite andb_true_iff, !vgeb_spec by lia. unfold m. rewrite vmax_le by lia. tauto. }
      rewrite V. destruct (vgeb v lr) eqn:V1; cbn [andb]; auto. destruct (vgeb v k); cbn [andb];
        rewrite ?andb_false_r, ?andb_true_r; auto.
      pose proof (Z.leb_spec 0 (zsum lr + c - zsum v)). destruct (Z.leb_spec (zsum v - zsum m) Q).
      * assert (0 <= zsum lr + c - zsum v) by (unfold Q in *; lia). destruct (Z.leb_spec 0 (zsum lr + c - zsum v)); [|lia].
        cbn [andb]. destruct (Z.ltb_spec (zsum lr + c - zsum v) (Z.of_nat (length lmax))); auto.
        unfold wcoef. rewrite binom_big; [ring|]. assert (0 < length lmax)%nat by (destruct lmax; [congruence|simpl; lia]). lia.
      * assert (zsum lr + c - zsum v < 0) by (unfold Q in *; lia).
        destruct (Z.leb_spec 0 (zsum lr + c - zsum v)); [lia|]. reflexivity.
  - rewrite simplex_sum by (unfold Q; lia). rewrite Lm. destruct (length lmax) as [|d] eqn:EL.
    + destruct lmax; [congruence|simpl in EL; lia].
    + replace (S d - 1)%nat with d by lia. apply iterPsum_one. unfold Q. lia.
Qed.

(** * The classical scheme with dummy dimensions *)

Lemma erase_nonempty : forall lmin lmax, length lmin = length lmax -> lmin <> lmax ->
  eraseDummies (dummyMask lmin lmax) lmin <> [].
Proof.
  intros lmin lmax L H E. apply H. clear H. unfold dummyMask in E. revert lmax L E.
  induction lmin as [|x a IH]; intros [|y b] L E; simpl in *; try lia; auto.
  destruct (Z.eqb_spec (y - x) 0); [|discriminate]. f_equal; [lia|]. apply IH; auto.
Qed.

Lemma erase_F2 : forall (R : Z -> Z -> Prop) mask a b, Forall2 R a b -> Forall2 R (eraseDummies mask a) (eraseDummies mask b).
Proof.
  intros R mask a b F. revert mask. induction F; intros [|[|] m]; cbn [eraseDummies]; try constructor; auto.
Qed.
Lemma erase_F : forall (P : Z -> Prop) mask a, Forall P a -> Forall P (eraseDummies mask a).
Proof. intros P mask a F. revert mask. induction F; intros [|[|] m]; cbn [eraseDummies]; try constructor; auto. Qed.

Lemma match_nonempty : forall (A B : Type) (l : list A) (a b : B), l <> [] -> match l with [] => a | _ :: _ => b end = b.
Proof. intros A B [|x l] a b H; [congruence|reflexivity]. Qed.

Lemma excess_mono : forall a b r, Forall2 Z.le a b -> excess a r <= excess b r.
Proof.
  unfold excess. intros a b r F. revert r. induction F; intros [|z r]; cbn [map2]; rewrite ?zsum_nil, ?zsum_cons; try specialize (IHF r); lia.
Qed.

(** The quantities of the classical scheme, in closed form. *)
Section Classical.
Variables (lmin lmax : list Z).
Hypothesis HF : Forall2 Z.le lmin lmax.
Hypothesis HP : Forall (fun x => 1 <= x) lmin.
Hypothesis HN : lmin <> lmax.

Let mask := dummyMask lmin lmax.
Let lmaxr := eraseDummies mask lmax.
Let lminr := eraseDummies mask lmin.
Let cc := minElement (map2 Z.sub lmaxr lminr).
Let lr := map (fun x => x - cc) lmaxr.
Let consts := firstn (countTrue mask) lmax.

Lemma cl_len : length lmin = length lmax.
Proof. eapply Forall2_length; eauto. Qed.
Lemma cl_mask : length mask = length lmax.
Proof. apply dummyMask_length, cl_len. Qed.
Lemma cl_red_ne : lminr <> [].
Proof. apply erase_nonempty; auto using cl_len. Qed.
Lemma cl_maxr_len : length lmaxr = countFalse mask.
Proof. apply eraseDummies_length. symmetry. apply cl_mask. Qed.
Lemma cl_minr_len : length lminr = countFalse mask.
Proof. apply eraseDummies_length. rewrite cl_mask. apply cl_len. Qed.
Lemma cl_maxr_ne : lmaxr <> [].
Proof. pose proof cl_red_ne. pose proof cl_maxr_len. pose proof cl_minr_len. destruct lmaxr, lminr; simpl in *; congruence. Qed.
Lemma cl_F2r : Forall2 Z.le lminr lmaxr.
Proof. now apply erase_F2. Qed.
Lemma cl_Pr : Forall (fun x => 1 <= x) lminr.
Proof. now apply erase_F. Qed.
Lemma cl_true_le : (countTrue mask <= length lmax)%nat.
Proof. rewrite <- cl_mask. apply countTrue_le. Qed.

Lemma classicalScheme_eq :
  let s := classicalScheme lmin lmax in
  let w := fun v => weave mask v lmax in
  let n := zsum lr + cc + zsum consts in
  sLmin s = w lr /\ sN s = n /\ sEffDim s = length lmaxr /\
  sLevels s = map w (truncatedLevels lmaxr lminr) /\
  sSpaces s = map w (filter (fun v => vgeb v lr && ((0 <=? zsum lr + cc - zsum v) &&
                                        (zsum lr + cc - zsum v <? Z.of_nat (length lmaxr))))
                            (truncatedLevels lmaxr lminr)) /\
  sCoeffs s = map (fun v => wcoef (length lmaxr - 1) (n - zsum v)) (sSpaces s).
Proof.
  intros s w n.
  assert (EFF : effDim lmin lmax = length lmaxr) by (rewrite effDim_count, cl_maxr_len; auto using cl_len).
  assert (C : schemeC (map2 Z.sub lmaxr lminr) (effDim lmin lmax) = cc).
  { rewrite EFF. replace (length lmaxr) with (length (map2 Z.sub lmaxr lminr))
      by (rewrite map2_length; rewrite ?cl_maxr_len, ?cl_minr_len; auto).
    apply schemeC_min. pose proof cl_red_ne. pose proof cl_maxr_ne. destruct lmaxr, lminr; simpl; congruence. }
  assert (LM : newLmin (dummyDims mask 0) lmax cc = w lr).
  { rewrite newLmin_weave by (symmetry; apply cl_mask). unfold w, lr. now rewrite eraseDummies_map. }
  assert (Llr : length lr = countFalse mask) by (unfold lr; rewrite map_length; apply cl_maxr_len).
  assert (SL : levelSum (w lr) = zsum lr + zsum consts).
  { rewrite levelSum_zsum. unfold w. apply weave_sum; auto using cl_true_le. }
  assert (LV : map (reinsert (dummyDims mask 0) lmax) (truncatedLevels lmaxr lminr)
               = map w (truncatedLevels lmaxr lminr)).
  { apply map_ext_in. intros v Hv. apply truncated_closed_form in Hv as [Lv _]; auto using cl_maxr_ne, cl_F2r.
    apply reinsert_weave; auto using cl_true_le. rewrite Lv. apply cl_maxr_len. }
  assert (SP : classicalSpaces lmin lmax =
    {| sSpaces := map w (filter (fun v => vgeb v lr && ((0 <=? zsum lr + cc - zsum v) &&
                                        (zsum lr + cc - zsum v <? Z.of_nat (length lmaxr))))
                            (truncatedLevels lmaxr lminr));
       sCoeffs := []; sLevels := map w (truncatedLevels lmaxr lminr); sLmin := w lr; sN := n;
       sEffDim := length lmaxr |}).
  { unfold classicalSpaces. cbv zeta. fold mask. fold lmaxr. fold lminr.
    rewrite match_nonempty by apply cl_red_ne.
    rewrite C, LM, LV, SL, EFF.
    assert (NN : zsum lr + zsum consts + cc = n) by (unfold n; ring). rewrite NN.
    f_equal. rewrite diagonals_filter, filter_map_comm. f_equal. apply filter_ext_in. intros v Hv.
    apply truncated_closed_form in Hv as [Lv _]; [|apply cl_maxr_ne|apply cl_F2r].
    assert (Lv' : length v = countFalse mask) by (rewrite Lv; apply cl_maxr_len).
    unfold w at 1 2. rewrite weave_vgeb by (auto using cl_true_le). fold consts.
    assert (R : vgeb consts consts = true).
    { apply vgeb_spec; auto. clear. induction consts; constructor; auto. lia. }
    rewrite R, andb_true_r. do 2 f_equal.
    - f_equal. rewrite levelSum_zsum. unfold w. rewrite weave_sum by auto using cl_true_le. fold consts. unfold n. lia.
    - f_equal. rewrite levelSum_zsum. unfold w. rewrite weave_sum by auto using cl_true_le. fold consts. unfold n. lia. }
  unfold s, classicalScheme. rewrite SP. cbn [sSpaces sCoeffs sLevels sLmin sN sEffDim app].
  repeat (split; [reflexivity|]). apply map_ext. intros v. unfold classicalCoeff, wcoef. cbv zeta.
  now rewrite levelSum_zsum.
Qed.

Theorem classical_unity : forall k, length k = length lmax ->
  Forall2 Z.le (selectDummies mask k) consts -> excess (eraseDummies mask k) lr <= cc ->
  coverage (sSpaces (classicalScheme lmin lmax)) (sCoeffs (classicalScheme lmin lmax)) k = 1.
Proof.
  intros k Lk D E. destruct classicalScheme_eq as (_ & _ & _ & _ & ES & EC). rewrite EC, coverage_map, ES.
  rewrite filter_map_comm, map_map, filter_filter.
  assert (Lm : length k = length mask) by (rewrite cl_mask; auto).
  rewrite zsum_filter_ite.
  rewrite <- (reduced_unity lmaxr lminr (eraseDummies mask k) cl_maxr_ne cl_F2r cl_Pr); auto.
  2:{ rewrite eraseDummies_length by auto. symmetry. apply cl_maxr_len. }
  apply zsum_map_ext. intros v Hv. apply truncated_closed_form in Hv as [Lv _]; auto using cl_maxr_ne, cl_F2r.
  assert (Lv' : length v = countFalse mask) by (rewrite Lv; apply cl_maxr_len).
  fold cc. fold lr. rewrite weave_sum by auto using cl_true_le. fold consts.
  assert (G : vgeb (weave mask v lmax) k = vgeb v (eraseDummies mask k)).
  { rewrite <- (weave_split mask k Lm) at 1. rewrite weave_vgeb; auto using cl_true_le.
    - rewrite (firstn_all2 (selectDummies mask k)) by (rewrite selectDummies_length; auto). fold consts.
      assert (V : vgeb consts (selectDummies mask k) = true).
      { apply vgeb_spec; auto. apply Forall2_length in D. symmetry. exact D. }
      rewrite V. apply andb_true_r.
    - apply eraseDummies_length; auto.
    - rewrite selectDummies_length; auto. }
  rewrite G. replace (zsum lr + cc + zsum consts - (zsum v + zsum consts)) with (zsum lr + cc - zsum v) by ring. reflexivity.
Qed.

Lemma erase_weave : forall m a x, length a = countFalse m -> (countTrue m <= length x)%nat ->
  eraseDummies m (weave m a x) = a /\ selectDummies m (weave m a x) = firstn (countTrue m) x.
Proof.
  induction m as [|[|] m IH]; intros a x La Lx; cbn [weave countTrue countFalse] in *.
  - destruct a; [|simpl in La; lia]. auto.
  - destruct x as [|x0 x]; simpl in Lx; [lia|]. cbn [eraseDummies selectDummies firstn].
    destruct (IH a x La ltac:(lia)) as [-> ->]. auto.
  - destruct a as [|a0 a]; simpl in La; [lia|]. cbn [eraseDummies selectDummies].
    destruct (IH a x ltac:(lia) Lx) as [-> ->]. auto.
Qed.

Lemma select_F2 : forall (R : Z -> Z -> Prop) m a b, Forall2 R a b -> Forall2 R (selectDummies m a) (selectDummies m b).
Proof.
  intros R m a b F. revert m. induction F; intros [|[|] m]; cbn [selectDummies]; try constructor; auto.
Qed.


(** Everything at or below a level of the scheme is covered. *)
Theorem classical_unity_below : forall l k, In l (sLevels (classicalScheme lmin lmax)) -> Forall2 Z.le k l ->
  coverage (sSpaces (classicalScheme lmin lmax)) (sCoeffs (classicalScheme lmin lmax)) k = 1.
Proof.
  intros l k Hl Hk. destruct classicalScheme_eq as (_ & _ & _ & EL & _). rewrite EL in Hl.
  apply in_map_iff in Hl as [v [<- Hv]]. apply truncated_closed_form in Hv as (Lv & _ & E); auto using cl_maxr_ne, cl_F2r.
  assert (Lv' : length v = countFalse mask) by (rewrite Lv; apply cl_maxr_len).
  destruct (erase_weave mask v lmax Lv' cl_true_le) as [E1 E2].
  apply classical_unity.
  - apply Forall2_length in Hk. rewrite Hk, weave_length, cl_mask; auto using cl_true_le.
  - apply (select_F2 _ mask) in Hk. rewrite E2 in Hk. exact Hk.
  - apply (erase_F2 _ mask) in Hk. rewrite E1 in Hk. pose proof (excess_mono _ _ lr Hk) as M.
    fold cc in E. fold lr in E. lia.
Qed.

Lemma spaces_in_levels : forall l, In l (sSpaces (classicalScheme lmin lmax)) -> In l (sLevels (classicalScheme lmin lmax)).
Proof.
  intros l Hl. destruct classicalScheme_eq as (_ & _ & _ & EL & ES & _). rewrite ES in Hl. rewrite EL.
  apply in_map_iff in Hl as [v [<- Hv]]. apply filter_In in Hv. apply in_map_iff. exists v. tauto.
Qed.

(** The grids of the scheme: between the reduced minimum and the simplex boundary, dummy dimensions as inserted. *)
Lemma classical_dummy_level : forall l d, In l (sSpaces (classicalScheme lmin lmax)) -> (d < length lmax)%nat ->
  nth d mask false = true -> nth d l 0 = nth (countTrue (firstn d mask)) lmax 0.
Proof.
  intros l d Hl Hd Hm. destruct classicalScheme_eq as (_ & _ & _ & _ & ES & _). rewrite ES in Hl.
  apply in_map_iff in Hl as [v [<- Hv]]. apply filter_In in Hv as [Hv _].
  apply truncated_closed_form in Hv as [Lv _]; auto using cl_maxr_ne, cl_F2r.
  assert (Lv' : length v = countFalse mask) by (rewrite Lv; apply cl_maxr_len).
  pose proof cl_true_le as Lx. clear -Lv' Lx Hm. clearbody mask. revert d v Lv' Lx Hm. generalize lmax. clear.
  induction mask as [|[|] m IH]; intros lx d v Lv Lx Hm; cbn [weave countTrue countFalse] in *.
  - destruct d; discriminate.
  - destruct lx as [|x lx]; simpl in Lx; [lia|]. destruct d as [|d]; [reflexivity|]. cbn [nth firstn countTrue].
    apply IH; auto; lia.
  - destruct v as [|y v]; simpl in Lv; [lia|]. destruct d as [|d]; [discriminate|]. cbn [nth firstn countTrue].
    apply IH; auto; lia.
Qed.

(** The active front: every grid of the scheme lies below one with coefficient 1. *)
Lemma classical_front : forall l, In l (sSpaces (classicalScheme lmin lmax)) ->
  exists f, In (f, 1) (combine (sSpaces (classicalScheme lmin lmax)) (sCoeffs (classicalScheme lmin lmax))) /\ Forall2 Z.le l f.
Proof.
  intros l Hl. destruct classicalScheme_eq as (_ & _ & _ & _ & ES & EC). cbv zeta in *.
  rewrite EC. rewrite ES in Hl. apply in_map_iff in Hl as [v [<- Hv]]. apply filter_In in Hv as [Hv Hc].
  apply andb_true_iff in Hc as [Hge Hd]. apply andb_true_iff in Hd as [Hd1 Hd2].
  pose proof Hv as Hv0. apply truncated_closed_form in Hv as (Lv & Pv & Ev); auto using cl_maxr_ne, cl_F2r.
  fold cc in Ev. fold lr in Ev.
  assert (Lv' : length v = countFalse mask) by (rewrite Lv; apply cl_maxr_len).
  assert (Llr : length lr = length lmaxr) by apply map_length.
  apply vgeb_spec in Hge; [|lia].
  destruct v as [|x v]; [exfalso; apply cl_maxr_ne; destruct lmaxr; simpl in Lv; [auto|lia]|].
  set (q := zsum lr + cc - zsum (x :: v)) in *. assert (Hq : 0 <= q) by lia.
  set (f := (x + q) :: v).
  assert (Ff : Forall2 Z.le (x :: v) f).
  { unfold f. constructor; [lia|]. clear. induction v; constructor; auto. lia. }
  assert (Gf : Forall2 Z.le lr f).
  { clear -Hge Hq. unfold f. inv Hge. constructor; auto. lia. }
  assert (Sf : zsum f = zsum lr + cc) by (unfold f, q; rewrite !zsum_cons; lia).
  assert (If : In f (truncatedLevels lmaxr lminr)).
  { apply truncated_closed_form; auto using cl_maxr_ne, cl_F2r. split; [exact Lv|]. split.
    - inv Pv. constructor; auto. lia.
    - fold cc. fold lr. rewrite excess_above by (auto; rewrite Llr, <- Lv; reflexivity). lia. }
  assert (IS : In (weave mask f lmax) (sSpaces (classicalScheme lmin lmax))).
  { rewrite ES. apply in_map_iff. exists f. split; auto. apply filter_In. split; auto. apply andb_true_iff. split.
    - apply vgeb_spec; auto. rewrite Llr, <- Lv. reflexivity.
    - rewrite Sf. assert (0 < length lmaxr)%nat by (pose proof cl_maxr_ne; destruct lmaxr; [congruence|simpl; lia]). lia. }
  exists (weave mask f lmax). split.
  - assert (CF : wcoef (length lmaxr - 1) (zsum lr + cc + zsum consts - zsum (weave mask f lmax)) = 1).
    { rewrite weave_sum by (auto using cl_true_le). fold consts. rewrite Sf.
      replace (_ - _) with 0 by lia. unfold wcoef. simpl. now rewrite binom_0. }
    clear -IS CF. induction (sSpaces (classicalScheme lmin lmax)) as [|s sp IH]; [contradiction|].
    cbn [map combine]. destruct IS as [->|IS]; [left; now rewrite CF|right; auto].
  - pose proof cl_true_le as Lx. clear -Ff Lv' Lx.
    assert (Lf : length f = countFalse mask) by exact Lv'. clear Lv'. clearbody f. revert Ff Lf Lx. generalize (x :: v), f.
    clearbody mask. generalize lmax. clear. induction mask as [|[|] m IH]; intros lx a b F L Lx; cbn [weave countTrue countFalse] in *; [constructor| |].
    + destruct lx as [|y lx]; simpl in Lx; [lia|]. constructor; [lia|]. apply IH; auto; lia.
    + inv F; simpl in L; [lia|]. constructor; auto; apply IH; auto; lia.
Qed.

End Classical.

(** * Adaptive coefficients *)

Lemma vsub_map2 : forall a b, vsub a b = map2 Z.sub a b.
Proof. induction a; destruct b; simpl; auto. now rewrite IHa. Qed.

Lemma vadd_ones : forall s, vadd s (map (fun _ => 1) s) = map (fun x => x + 1) s.
Proof. induction s; simpl; auto. now rewrite IHs. Qed.

(** The coefficient by inclusion-exclusion. *)
Definition inclExcl (S : list (list Z)) (s : list Z) : Z :=
  zsum (map (fun x => if vgeb x s && vleb x (map (fun y => y + 1) s) then signPow (zsum (map2 Z.sub x s)) else 0) S).

Lemma adaptiveCoeff_sum : forall S s, adaptiveCoeff S s = inclExcl S s.
Proof.
  intros S s. unfold adaptiveCoeff, inclExcl. rewrite vadd_ones. cbv zeta.
  assert (G : forall S a, fold_left (fun acc nbr => if vgeb nbr s && vleb nbr (map (fun y => y + 1) s)
      then acc + signPow (levelSum (vsub nbr s)) else acc) S a
    = a + zsum (map (fun x => if vgeb x s && vleb x (map (fun y => y + 1) s)
                              then signPow (zsum (map2 Z.sub x s)) else 0) S)).
  { induction S0 as [|x S0 IH]; intros a; cbn [fold_left map].
    - rewrite zsum_nil. ring.
    - rewrite zsum_cons, IH. rewrite levelSum_zsum, vsub_map2.
      destruct (vgeb x s && vleb x (map (fun y => y + 1) s)); ring. }
  rewrite G. ring.
Qed.

Lemma dominated_lex : forall a b, Forall2 Z.le a b -> a = b \/ lexlt a b.
Proof.
  induction 1; auto. destruct (Z.eq_dec x y) as [->|]; [|right; constructor; lia].
  destruct IHForall2 as [->|]; auto. right. now apply lex_tail.
Qed.

Definition wfSpaces (dim : nat) (S : list (list Z)) : Prop :=
  StronglySorted lexlt S /\ Forall (fun s => length s = dim /\ Forall (fun x => 1 <= x) s) S.

Lemma sorted_nth : forall (S : list (list Z)) i j, StronglySorted lexlt S -> (i < j < length S)%nat ->
  lexlt (nth i S []) (nth j S []).
Proof.
  induction S as [|s S IH]; intros i j H Hij; [simpl in Hij; lia|].
  apply StronglySorted_inv in H as [H1 H2]. destruct j as [|j]; [lia|]. destruct i as [|i]; cbn [nth].
  - rewrite Forall_forall in H2. apply H2. apply nth_In. simpl in Hij. lia.
  - apply IH; auto. simpl in Hij. lia.
Qed.

Lemma coeff_ignores_earlier : forall dim S i (g : list Z -> list Z), (0 < dim)%nat -> wfSpaces dim S ->
  (i < length S)%nat -> (forall s, In s S -> g s = s \/ g s = map (fun _ => 0) s) ->
  inclExcl (map g (firstn i S) ++ skipn i S) (nth i S []) = inclExcl S (nth i S []).
Proof.
  intros dim S i g Hd [SS WF] Hi Hg. rewrite Forall_forall in WF.
  set (s := nth i S []).
  transitivity (inclExcl (firstn i S ++ skipn i S) s); [|now rewrite firstn_skipn].
  unfold inclExcl. rewrite !map_app, !zsum_app. f_equal. assert (Is : In s S) by (apply nth_In; auto).
  destruct (WF s Is) as [Ls Ps].
  assert (Z0 : forall x, In x (firstn i S) -> vgeb x s = false).
  { intros x Hx. apply (In_nth _ _ []) in Hx as [j [Hj <-]]. rewrite firstn_length in Hj.
    assert (E : nth j (firstn i S) [] = nth j S []).
    { rewrite <- (firstn_skipn i S) at 2. rewrite app_nth1 by (rewrite firstn_length; lia). reflexivity. }
    rewrite E. destruct (vgeb (nth j S []) s) eqn:V; auto. exfalso.
    assert (Ij : In (nth j S []) S) by (apply nth_In; lia).
    apply vgeb_spec in V; [|destruct (WF _ Ij); lia].
    pose proof (sorted_nth S j i SS ltac:(lia)) as LX. fold s in LX.
    destruct (dominated_lex _ _ V) as [EQ|L2].
    - rewrite EQ in LX. now apply lexlt_irrefl in LX.
    - apply (lexlt_irrefl s). eapply lexlt_trans; eauto. }
  transitivity 0; [|symmetry; apply zsum_map_0; intros x Hx; now rewrite Z0].
  apply zsum_map_0. intros x Hx. apply in_map_iff in Hx as [y [<- Hy]].
  assert (Iy : In y S) by (rewrite <- (firstn_skipn i S); apply in_or_app; auto).
  destruct (Hg y Iy) as [-> | ->]; [now rewrite Z0|].
  assert (V : vgeb (map (fun _ => 0) y) s = false).
  { destruct (vgeb (map (fun _ : Z => 0) y) s) eqn:V; auto. exfalso. destruct (WF y Iy) as [Ly _].
    apply vgeb_spec in V; [|rewrite map_length; lia].
    destruct y as [|b y']; [simpl in Ly; lia|]. clearbody s. destruct s as [|a s']; [simpl in Ls; lia|].
    cbn [map] in V. inv V. inv Ps. lia. }
  now rewrite V.
Qed.

Definition flagged (S : list (list Z)) (s : list Z) : list Z :=
  if inclExcl S s =? 0 then map (fun _ => 0) s else s.

Lemma upd_mid : forall (A : Type) (a : list A) x b v, upd (a ++ x :: b) (length a) v = a ++ v :: b.
Proof. intros. apply upd_app_len. Qed.

Lemma adaptiveLoop_inv : forall dim S, (0 < dim)%nat -> wfSpaces dim S -> forall k i, (i + k = length S)%nat ->
  adaptiveLoop k i (map (flagged S) (firstn i S) ++ skipn i S) (map (inclExcl S) (firstn i S))
  = (map (flagged S) S, map (inclExcl S) S).
Proof.
  intros dim S Hd WF. induction k as [|k IH]; intros i Hi; cbn [adaptiveLoop].
  - rewrite skipn_all2, firstn_all2 by lia. now rewrite app_nil_r.
  - cbv zeta.
    assert (Hlt : (i < length S)%nat) by lia.
    assert (SK : skipn i S = nth i S [] :: skipn (Datatypes.S i) S).
    { clear -Hlt. revert i Hlt. induction S; intros [|i] H; simpl in *; try lia; auto. apply IHS. lia. }
    assert (FS : firstn (Datatypes.S i) S = firstn i S ++ [nth i S []]).
    { clear -Hlt. revert i Hlt. induction S; intros [|i] H; simpl in *; try lia; auto. f_equal. apply IHS. lia. }
    assert (LF : length (map (flagged S) (firstn i S)) = i) by (rewrite map_length, firstn_length; lia).
    assert (EN : nth i (map (flagged S) (firstn i S) ++ skipn i S) [] = nth i S []).
    { rewrite app_nth2 by lia. rewrite LF, Nat.sub_diag, SK. reflexivity. }
    rewrite EN, adaptiveCoeff_sum, (coeff_ignores_earlier dim); auto.
    2:{ intros s _. unfold flagged. destruct (inclExcl S s =? 0); auto. }
    assert (U : (if inclExcl S (nth i S []) =? 0
                 then upd (map (flagged S) (firstn i S) ++ skipn i S) i (map (fun _ => 0) (nth i S []))
                 else map (flagged S) (firstn i S) ++ skipn i S)
              = map (flagged S) (firstn (Datatypes.S i) S) ++ skipn (Datatypes.S i) S).
    { rewrite FS, map_app, <- app_assoc. cbn [map app]. unfold flagged at 4.
      rewrite SK. destruct (inclExcl S (nth i S []) =? 0); auto.
      pose proof (upd_app_len _ (map (flagged S) (firstn i S)) (nth i S []) (skipn (Datatypes.S i) S)
        (map (fun _ => 0) (nth i S []))) as U. rewrite LF in U. exact U. }
    rewrite U. replace (map (inclExcl S) (firstn i S) ++ [inclExcl S (nth i S [])])
      with (map (inclExcl S) (firstn (Datatypes.S i) S)) by (rewrite FS, map_app; reflexivity).
    apply IH. lia.
Qed.

Lemma adaptiveCoeffs_eq : forall dim S, (0 < dim)%nat -> wfSpaces dim S ->
  let F := filter (fun s => negb (inclExcl S s =? 0)) S in
  adaptiveCoeffs S = (F, map (inclExcl S) F).
Proof.
  intros dim S Hd WF F. unfold adaptiveCoeffs. pose proof (adaptiveLoop_inv dim S Hd WF (length S) 0 ltac:(lia)) as E.
  cbn [firstn map app skipn] in E. rewrite E. f_equal.
  - destruct WF as [_ WF]. unfold F. clear -WF Hd.
    assert (G : forall T, Forall (fun s => length s = dim /\ Forall (fun x => 1 <= x) s) T ->
      filter (fun v => negb (isZeroVec v)) (map (flagged S) T) = filter (fun s => negb (inclExcl S s =? 0)) T).
    { induction 1 as [|s T [Ls Ps] _ IH]; auto. cbn [map filter]. rewrite IH. unfold flagged at 1 2.
      destruct (inclExcl S s =? 0) eqn:E; cbn [negb].
      - assert (Z0 : isZeroVec (map (fun _ => 0) s) = true).
        { unfold isZeroVec. clear. induction s; auto. }
        now rewrite Z0.
      - assert (Z0 : isZeroVec s = false).
        { destruct s as [|a s]; [simpl in Ls; lia|]. inv Ps. unfold isZeroVec. cbn [forallb].
          destruct (Z.eqb_spec a 0); [lia|reflexivity]. }
        rewrite Z0. reflexivity. }
    apply G. auto.
  - unfold F. clear. assert (G : forall T, filter (fun c => negb (c =? 0)) (map (inclExcl S) T)
      = map (inclExcl S) (filter (fun s => negb (inclExcl S s =? 0)) T)); [|apply G].
    induction T as [|s T IH]; auto. cbn [map filter].
    rewrite IH. destruct (inclExcl S s =? 0); reflexivity.
Qed.

Lemma signPow_add : forall a b, signPow (a + b) = signPow a * signPow b.
Proof. intros. unfold signPow. rewrite Z.even_add. destruct (Z.even a), (Z.even b); reflexivity. Qed.

Lemma signPow_prod : forall l, signPow (zsum l) = zprod (map signPow l).
Proof.
  induction l; [reflexivity|]. rewrite zsum_cons, signPow_add, IHl. reflexivity.
Qed.

Lemma alternating_box : forall k x, Forall2 Z.le k x ->
  zsum (map (fun l => signPow (zsum (map2 Z.sub x l))) (cart (map2 (fun kd xd => zrange (Z.max kd (xd - 1)) (xd + 1)) k x)))
  = if list_eq_dec Z.eq_dec k x then 1 else 0.
Proof.
  intros k x F.
  transitivity (zsum (map (fun l => zprod (map2 (fun f y => f y) (map (fun xd l => signPow (xd - l)) x) l))
     (cart (map2 (fun kd xd => zrange (Z.max kd (xd - 1)) (xd + 1)) k x)))).
  - apply zsum_map_ext. intros l _. rewrite signPow_prod, map2_map_l, map_map2. reflexivity.
  - apply Forall2_length in F as L. rewrite sum_cart by (rewrite map_length, map2_length; auto).
    rewrite map2_map_l. induction F as [|kd xd k x H F IH].
    + destruct (list_eq_dec Z.eq_dec [] []); [reflexivity|congruence].
    + cbn [map2]. rewrite zprod_cons, IH by (simpl in L; lia). clear IH.
      assert (E : zsum (map (fun l => signPow (xd - l)) (zrange (Z.max kd (xd - 1)) (xd + 1)))
                  = if Z.eq_dec kd xd then 1 else 0).
      { destruct (Z.eq_dec kd xd) as [->|NE].
        - rewrite Z.max_l by lia. rewrite zrange_cons, zrange_nil by lia. cbn [map].
          rewrite zsum_cons, zsum_nil, Z.sub_diag. reflexivity.
        - rewrite Z.max_r by lia. rewrite zrange_cons, zrange_cons, zrange_nil by lia. cbn [map].
          rewrite !zsum_cons, zsum_nil. replace (xd - (xd - 1)) with 1 by lia.
          replace (xd - (xd - 1 + 1)) with 0 by lia. reflexivity. }
      rewrite E. destruct (list_eq_dec Z.eq_dec (kd :: k) (xd :: x)) as [EQ|NE].
      * injection EQ. intros -> ->. destruct (Z.eq_dec xd xd); [|congruence].
        destruct (list_eq_dec Z.eq_dec x x); [reflexivity|congruence].
      * destruct (Z.eq_dec kd xd); [|ring]. destruct (list_eq_dec Z.eq_dec k x); [congruence|ring].
Qed.

(** Every level of a set closed downwards above [lmin] is covered with total coefficient 1. *)
Theorem adaptive_unity : forall dim S lmin k, (0 < dim)%nat -> wfSpaces dim S ->
  (forall x y, In x S -> Forall2 Z.le lmin y -> Forall2 Z.le y x -> In y S) ->
  Forall (fun s => Forall2 Z.le lmin s) S -> In k S ->
  coverage (fst (adaptiveCoeffs S)) (snd (adaptiveCoeffs S)) k = 1.
Proof.
  intros dim S lmin k Hd WF HC HL Hk. rewrite (adaptiveCoeffs_eq dim) by auto. cbn [fst snd].
  rewrite coverage_map, filter_filter, zsum_filter_ite.
  rewrite Forall_forall in HL. pose proof WF as [SS WF']. rewrite Forall_forall in WF'.
  rewrite (zsum_map_ext _ _ (fun s => zsum (map (fun x =>
     if vgeb s k && (vgeb x s && vleb x (map (fun y => y + 1) s)) then signPow (zsum (map2 Z.sub x s)) else 0) S))).
  - rewrite zsum_swap.
    rewrite (zsum_map_ext _ _ (fun x => if list_eq_dec Z.eq_dec k x then 1 else 0)).
    + apply lexsorted_NoDup in SS. clear -SS Hk. induction SS as [|x T Hx _ IH]; [contradiction|]. cbn [map]. rewrite zsum_cons.
      destruct Hk as [->|Hk].
      * rewrite zsum_map_0; [destruct (list_eq_dec Z.eq_dec k k); [lia|congruence]|].
        intros y Hy. destruct (list_eq_dec Z.eq_dec k y); [subst; contradiction|reflexivity].
      * rewrite IH by auto. destruct (list_eq_dec Z.eq_dec k x); [subst; contradiction|lia].
    + intros x Hx. destruct (vgeb x k) eqn:V.
      * apply vgeb_spec in V; [|rewrite (proj1 (WF' x Hx)), (proj1 (WF' k Hk)); auto].
        rewrite <- (alternating_box k x V). rewrite <- zsum_filter_ite. apply zsum_perm, Permutation_map.
        apply NoDup_Permutation.
        -- apply NoDup_filter. now apply lexsorted_NoDup.
        -- apply cart_NoDup. clear. revert x. induction k as [|a k IH]; intros [|b x]; cbn [map2]; constructor; auto.
           apply zrange_NoDup.
        -- intros l. rewrite filter_In, cart_In. split.
           ++ intros [Il C]. apply andb_true_iff in C as [C1 C2]. apply andb_true_iff in C2 as [C2 C3].
              destruct (WF' x Hx) as [Lx _]. destruct (WF' l Il) as [Ll _]. destruct (WF' k Hk) as [Lk _].
              apply vgeb_spec in C1; [|lia]. apply vgeb_spec in C2; [|lia].
              apply vleb_spec in C3; [|rewrite map_length; lia]. clear -C1 C2 C3.
              revert x C2 C3. induction C1 as [|kd ld k0 l0 H C1 IH]; intros x C2 C3; inv C2; cbn [map2]; constructor.
              ** apply zrange_In. inv C3. lia.
              ** inv C3. auto.
           ++ intros B. assert (C : Forall2 Z.le k l /\ Forall2 Z.le l x /\ Forall2 Z.le x (map (fun y => y + 1) l)).
              { clear -B V. revert l B. induction V as [|kd xd k0 x0 H V IH]; intros l B; cbn [map2] in B; inv B.
                - split; [|split]; constructor.
                - match goal with H : In _ (zrange _ _) |- _ => apply zrange_In in H end.
                  match goal with H : Forall2 _ _ ?r |- _ => destruct (IH _ H) as (I1 & I2 & I3) end.
                  cbn [map]. split; [|split]; constructor; auto; lia. }
              destruct C as (C1 & C2 & C3). assert (Il : In l S).
              { apply (HC x); auto. specialize (HL k Hk). clear -HL C1.
                revert l C1. induction HL; intros l2 C1; inv C1; constructor; auto. lia. }
              split; auto. apply Forall2_length in C1 as L1. apply Forall2_length in C2 as L2.
              apply andb_true_iff. split; [apply vgeb_spec; auto|]. apply andb_true_iff.
              split; [apply vgeb_spec; auto|apply vleb_spec; auto]. rewrite map_length. lia.
      * destruct (list_eq_dec Z.eq_dec k x) as [->|].
        { assert (vgeb x x = true); [|congruence]. apply vgeb_spec; auto. clear. induction x; constructor; auto. lia. }
        apply zsum_map_0. intros s Hs. destruct (vgeb s k && (vgeb x s && vleb x (map (fun y => y + 1) s))) eqn:C; auto.
        exfalso. apply andb_true_iff in C as [C1 C2]. apply andb_true_iff in C2 as [C2 _].
        destruct (WF' x Hx) as [Lx _]. destruct (WF' s Hs) as [Ls _]. destruct (WF' k Hk) as [Lk _].
        apply vgeb_spec in C1; [|lia]. apply vgeb_spec in C2; [|lia].
        assert (vgeb x k = true); [|congruence]. apply vgeb_spec; [lia|].
        clear -C1 C2. revert x C2. induction C1; intros x' C2; inv C2; constructor; auto. lia.
  - intros s Hs. destruct (vgeb s k); cbn [andb].
    + rewrite andb_true_r. destruct (Z.eqb_spec (inclExcl S s) 0) as [E|E]; cbn [negb].
      * unfold inclExcl in E. symmetry. exact E.
      * reflexivity.
    + rewrite andb_false_r. symmetry. apply zsum_map_0. auto.
Qed.

(** The maximal grids carry coefficient 1. *)
Lemma inclExcl_maximal : forall dim S f, wfSpaces dim S -> In f S ->
  (forall x, In x S -> Forall2 Z.le f x -> x = f) -> inclExcl S f = 1.
Proof.
  intros dim S f [SS WF] Hf M. unfold inclExcl. rewrite Forall_forall in WF.
  rewrite (zsum_map_ext _ _ (fun x => if list_eq_dec Z.eq_dec f x then 1 else 0)).
  - apply lexsorted_NoDup in SS. clear -SS Hf. induction SS as [|x T Hx _ IH]; [contradiction|]. cbn [map]. rewrite zsum_cons.
    destruct Hf as [->|Hk].
    + rewrite zsum_map_0; [destruct (list_eq_dec Z.eq_dec f f); [lia|congruence]|].
      intros y Hy. destruct (list_eq_dec Z.eq_dec f y); [subst; contradiction|reflexivity].
    + rewrite IH by auto. destruct (list_eq_dec Z.eq_dec f x); [subst; contradiction|lia].
  - intros x Hx. destruct (list_eq_dec Z.eq_dec f x) as [->|NE].
    + assert (V1 : vgeb x x = true) by (apply vgeb_spec; auto; clear; induction x; constructor; auto; lia).
      assert (V2 : vleb x (map (fun y => y + 1) x) = true).
      { apply vleb_spec; [now rewrite map_length|]. clear. induction x; cbn [map]; constructor; auto. lia. }
      rewrite V1, V2. cbn [andb]. assert (E : zsum (map2 Z.sub x x) = 0).
      { clear. induction x; cbn [map2]; [reflexivity|]. rewrite zsum_cons. lia. }
      rewrite E. reflexivity.
    + destruct (vgeb x f) eqn:V; auto. exfalso. apply NE. symmetry. apply M; auto.
      apply vgeb_spec in V; auto. destruct (WF x Hx), (WF f Hf). lia.
Qed.

Lemma exists_maximal : forall (S : list (list Z)) x, In x S ->
  exists f, In f S /\ Forall2 Z.le x f /\ forall y, In y S -> Forall2 Z.le f y -> y = f.
Proof.
  intros S x Hx.
  assert (T : forall a b c : list Z, Forall2 Z.le a b -> Forall2 Z.le b c -> Forall2 Z.le a c).
  { intros a b c H1. revert c. induction H1; intros c H2; inv H2; constructor; auto. lia. }
  assert (R : forall a : list Z, Forall2 Z.le a a) by (induction a; constructor; auto; lia).
  assert (B : exists M, forall y, In y S -> zsum y <= M).
  { clear. induction S as [|s S [M IH]]; [exists 0; simpl; tauto|].
    exists (Z.max M (zsum s)). intros y [<-|Hy]; [lia|]. specialize (IH y Hy). lia. }
  destruct B as [M HM].
  assert (G : forall n x, In x S -> M - zsum x < Z.of_nat n ->
    exists f, In f S /\ Forall2 Z.le x f /\ forall y, In y S -> Forall2 Z.le f y -> y = f).
  { induction n as [|n IH]; intros z Hz Hn; [specialize (HM z Hz); lia|].
    destruct (Exists_dec (fun y => Forall2 Z.le z y /\ y <> z) S) as [E|E].
    - intros y. destruct (list_eq_dec Z.eq_dec y z) as [->|NE]; [right; tauto|].
      destruct (Nat.eq_dec (length y) (length z)) as [L|L].
      + destruct (vgeb y z) eqn:V.
        * left. split; auto. now apply vgeb_spec in V.
        * right. intros [F _]. apply vgeb_spec in F; auto. congruence.
      + right. intros [F _]. apply Forall2_length in F. lia.
    - apply Exists_exists in E as [y [Hy [F NE]]].
      assert (S1 : zsum z < zsum y).
      { clear -F NE. assert (A : zsum z <= zsum y /\ (zsum z = zsum y -> z = y)).
        { clear NE. induction F; [rewrite zsum_nil; split; [lia|auto]|]. rewrite !zsum_cons. destruct IHF as [A1 A2].
          split; [lia|]. intros E. f_equal; [lia|]. apply A2. lia. }
        destruct A as [A1 A2]. destruct (Z.eq_dec (zsum z) (zsum y)) as [E|]; [|lia]. exfalso. apply NE. symmetry. auto. }
      destruct (IH y Hy ltac:(lia)) as [f [I1 [I2 I3]]]. exists f. split; auto. split; auto. eapply T; eauto.
    - exists z. split; auto. split; auto. intros y Hy F.
      destruct (list_eq_dec Z.eq_dec y z) as [|NE]; auto. exfalso. apply E. apply Exists_exists. exists y. auto. }
  apply (G (Z.to_nat (M - zsum x + 1))); auto. specialize (HM x Hx). lia.
Qed.

Lemma in_combine_map : forall (f : list Z -> Z) l x, In x l -> In (x, f x) (combine l (map f l)).
Proof. induction l; intros x H; [contradiction|]. destruct H as [->|H]; simpl; auto. Qed.

Lemma adaptive_front : forall dim S l, (0 < dim)%nat -> wfSpaces dim S -> In l S ->
  exists f, In (f, 1) (combine (fst (adaptiveCoeffs S)) (snd (adaptiveCoeffs S))) /\ Forall2 Z.le l f.
Proof.
  intros dim S l Hd WF Hl. rewrite (adaptiveCoeffs_eq dim) by auto. cbn [fst snd].
  destruct (exists_maximal S l Hl) as [f [I1 [I2 I3]]]. exists f. split; auto.
  pose proof (inclExcl_maximal dim S f WF I1 I3) as E. rewrite <- E. apply in_combine_map.
  apply filter_In. split; auto. rewrite E. reflexivity.
Qed.

(** * The adaptive scheme *)

Lemma argMax_spec : forall l i best m v0, nth best v0 0 = m -> (best < i)%nat -> (i = length v0)%nat ->
  (forall x, In x v0 -> x <= m) ->
  forall x, In x (v0 ++ l) -> x <= nth (argMax l i best m) (v0 ++ l) 0.
Proof.
  induction l as [|y l IH]; intros i best m v0 E Hb Hi Hm x Hx; cbn [argMax].
  - rewrite app_nil_r in *. rewrite E. auto.
  - assert (EQ : v0 ++ y :: l = (v0 ++ [y]) ++ l) by (now rewrite <- app_assoc). rewrite EQ in *.
    destruct (Z.ltb_spec m y).
    + apply IH; auto.
      * rewrite app_nth2 by lia. replace (i - length v0)%nat with 0%nat by lia. reflexivity.
      * rewrite app_length. simpl. lia.
      * intros z Hz. apply in_app_or in Hz as [Hz|[->|[]]]; [specialize (Hm z Hz)|]; lia.
    + apply IH; auto.
      * rewrite app_nth1 by lia. auto.
      * rewrite app_length. simpl. lia.
      * intros z Hz. apply in_app_or in Hz as [Hz|[->|[]]]; [specialize (Hm z Hz)|]; lia.
Qed.

Lemma argMax_lt : forall l i best m, (best < i)%nat -> (argMax l i best m < i + length l)%nat.
Proof.
  induction l as [|y l IH]; intros i best m H; cbn [argMax length]; [lia|].
  destruct (m <? y).
  - specialize (IH (Datatypes.S i) i y ltac:(lia)). lia.
  - specialize (IH (Datatypes.S i) best m ltac:(lia)). lia.
Qed.

Lemma zsum_upd : forall l i x, (i < length l)%nat -> zsum (upd l i x) = zsum l - nth i l 0 + x.
Proof.
  induction l as [|y l IH]; intros [|i] x H; simpl in H; try lia; cbn [upd nth]; rewrite !zsum_cons; [lia|].
  rewrite IH by lia. lia.
Qed.

(** n_ is the level sum of lmin plus the largest difference. *)
Lemma adaptiveN_spec : forall lmin lmax, Forall2 Z.le lmin lmax -> lmin <> [] ->
  exists N, adaptiveN lmin lmax = zsum lmin + N /\ 0 <= N /\
    (forall d, (d < length lmin)%nat -> nth d lmax 0 - nth d lmin 0 <= N) /\
    (exists d, (d < length lmin)%nat /\ nth d lmax 0 - nth d lmin 0 = N).
Proof.
  intros lmin lmax F Hne. apply Forall2_length in F as L.
  unfold adaptiveN, furthestCorner. destruct (map2 Z.sub lmax lmin) as [|x r] eqn:E.
  - destruct lmin, lmax; simpl in *; try congruence; lia.
  - set (j := argMax r 1 0 x).
    assert (LE : length (x :: r) = length lmin) by (rewrite <- E, map2_length; lia).
    assert (Hj : (j < length lmin)%nat).
    { pose proof (argMax_lt r 1 0 x ltac:(lia)) as A. fold j in A. simpl in LE. lia. }
    assert (NT : forall d, (d < length lmin)%nat -> nth d (x :: r) 0 = nth d lmax 0 - nth d lmin 0).
    { intros d Hd. rewrite <- E. apply map2_nth; lia. }
    assert (MX : forall d, (d < length lmin)%nat -> nth d lmax 0 - nth d lmin 0 <= nth j lmax 0 - nth j lmin 0).
    { intros d Hd. rewrite <- !NT by auto.
      apply (argMax_spec r 1 0 x [x]); auto.
      - intros y [->|[]]. lia.
      - cbn [app]. apply nth_In. lia. }
    exists (nth j lmax 0 - nth j lmin 0). rewrite levelSum_zsum, zsum_upd by auto. split; [ring|]. split.
    + apply (Forall2_nth_iff _ _ _ 0 0) in F as [_ F]. specialize (F j Hj). simpl in F. lia.
    + split; auto. exists j. auto.
Qed.

Lemma minElement_const : forall l n, l <> [] -> (forall x, In x l -> x = n) -> minElement l = n.
Proof. intros l n H A. apply A. now apply minElement_In. Qed.

Lemma adaptiveSpaces_In : forall lmin lmax v, Forall2 Z.le lmin lmax -> lmin <> [] -> Forall (fun x => 1 <= x) lmin ->
  let N := adaptiveN lmin lmax - zsum lmin in
  (In v (adaptiveSpaces lmin lmax) <->
   Forall2 Z.le lmin v /\ zsum v <= zsum lmin + N /\ excess v (map (fun x => x - N) lmax) <= N).
Proof.
  intros lmin lmax v F Hne P N. apply Forall2_length in F as L.
  destruct (adaptiveN_spec lmin lmax F Hne) as (N' & EN & HN & _ & _).
  assert (N' = N) by (unfold N; lia). subst N'.
  assert (Hm : lmax <> []) by (destruct lmin, lmax; simpl in *; congruence).
  assert (MD : minElement (map2 Z.sub lmax (map (fun x => x - N) lmax)) = N).
  { apply minElement_const; [destruct lmax; simpl; congruence|]. intros x Hx.
    clear -Hx. clearbody N. induction lmax; cbn [map map2] in Hx; [contradiction|]. destruct Hx as [<-|Hx]; [lia|auto]. }
  assert (F' : Forall2 Z.le (map (fun x => x - N) lmax) lmax).
  { clear -HN. clearbody N. induction lmax; cbn [map]; constructor; auto. lia. }
  unfold adaptiveSpaces. rewrite filter_In. unfold adaptiveLevels. rewrite levelSum_zsum. fold N. cbv zeta.
  rewrite truncated_closed_form by auto. rewrite MD, EN. rewrite andb_true_iff, levelSum_zsum, Z.leb_le. split.
  - intros [(Lv & Pv & E) [G S]]. apply vgeb_spec in G; [|lia]. auto.
  - intros (G & S & E). apply Forall2_length in G as Lv. split; [|split; auto; apply vgeb_spec; auto].
    split; [lia|]. split; auto. clear -G P. induction G; constructor; inv P; auto. lia.
Qed.

Lemma filter_sorted : forall (A : Type) (R : A -> A -> Prop) p l, StronglySorted R l -> StronglySorted R (filter p l).
Proof.
  induction 1 as [|x l H IH F]; [constructor|]. cbn [filter]. destruct (p x); auto. constructor; auto.
  rewrite Forall_forall in *. intros y Hy. apply filter_In in Hy. apply F. tauto.
Qed.

Lemma adaptiveSpaces_wf : forall lmin lmax, Forall2 Z.le lmin lmax -> lmin <> [] -> Forall (fun x => 1 <= x) lmin ->
  wfSpaces (length lmin) (adaptiveSpaces lmin lmax).
Proof.
  intros lmin lmax F Hne P. split.
  - apply filter_sorted. unfold adaptiveLevels, truncatedLevels. apply truncRec_sorted.
  - apply Forall_forall. intros v Hv. apply adaptiveSpaces_In in Hv as (G & _ & _); auto.
    apply Forall2_length in G as Lv. split; auto. clear -G P. induction G; constructor; inv P; auto. lia.
Qed.

Lemma adaptiveSpaces_closed : forall lmin lmax x y, Forall2 Z.le lmin lmax -> lmin <> [] -> Forall (fun x => 1 <= x) lmin ->
  In x (adaptiveSpaces lmin lmax) -> Forall2 Z.le lmin y -> Forall2 Z.le y x -> In y (adaptiveSpaces lmin lmax).
Proof.
  intros lmin lmax x y F Hne P Hx H1 H2. apply adaptiveSpaces_In in Hx as (G & S & E); auto.
  apply adaptiveSpaces_In; auto. split; auto. split.
  - assert (zsum y <= zsum x); [|lia]. clear -H2. induction H2; rewrite ?zsum_nil, ?zsum_cons; lia.
  - pose proof (excess_mono y x (map (fun x => x - (adaptiveN lmin lmax - zsum lmin)) lmax) H2). lia.
Qed.

(** * createDownSet *)

Lemma lexltb_spec : forall a b, length a = length b -> (lexltb a b = true <-> lexlt a b).
Proof.
  induction a as [|x a IH]; intros [|y b] L; simpl in L; try lia; cbn [lexltb].
  - split; [discriminate|intros H; inv H].
  - rewrite orb_true_iff, andb_true_iff, Z.ltb_lt, Z.eqb_eq, IH by lia. split.
    + intros [H|[-> H]]; [now apply lex_head|now apply lex_tail].
    + intros H. inv H; auto.
Qed.

Lemma setInsert_In : forall dim v s x, length v = dim -> Forall (fun w => length w = dim) s ->
  (In x (setInsert v s) <-> x = v \/ In x s).
Proof.
  intros dim v s x Lv F. induction F as [|w s Lw F IH]; cbn [setInsert].
  - simpl. intuition congruence.
  - destruct (lexltb v w) eqn:E1; [simpl; intuition congruence|].
    destruct (lexltb w v) eqn:E2; cbn [In].
    + rewrite IH. intuition congruence.
    + assert (v = w); [|subst; intuition congruence]. destruct (lexlt_total v w ltac:(lia)) as [|[H|H]]; auto;
      apply lexltb_spec in H; try lia; congruence.
Qed.

Lemma setInsert_sorted : forall dim v s, length v = dim -> Forall (fun w => length w = dim) s ->
  StronglySorted lexlt s -> StronglySorted lexlt (setInsert v s).
Proof.
  intros dim v s Lv F SS. induction SS as [|w s SS IH Fw]; cbn [setInsert]; [repeat constructor|].
  inv F. destruct (lexltb v w) eqn:E1.
  - apply lexltb_spec in E1; [|lia]. constructor; [constructor; auto|]. constructor; auto.
    rewrite Forall_forall in *. intros y Hy. eapply lexlt_trans; eauto.
  - destruct (lexltb w v) eqn:E2; [|constructor; auto]. apply lexltb_spec in E2; [|lia]. constructor; auto.
    rewrite Forall_forall in *. intros y Hy. apply (setInsert_In (length v)) in Hy; auto.
    + destruct Hy as [->|Hy]; auto.
    + apply Forall_forall. auto.
Qed.

Lemma insertAll_spec : forall dim vs s, Forall (fun w => length w = dim) vs -> Forall (fun w => length w = dim) s ->
  StronglySorted lexlt s ->
  let r := fold_left (fun s v => setInsert v s) vs s in
  StronglySorted lexlt r /\ Forall (fun w => length w = dim) r /\ forall x, In x r <-> In x vs \/ In x s.
Proof.
  intros dim vs s Fv. revert s. induction Fv as [|v vs Lv Fv IH]; intros s Fs SS; cbn [fold_left]; cbv zeta.
  - split; auto. split; auto. intros. simpl. tauto.
  - destruct (IH (setInsert v s)) as (I1 & I2 & I3).
    + apply Forall_forall. intros w Hw. apply (setInsert_In dim) in Hw; auto. rewrite Forall_forall in Fs.
      destruct Hw as [->|Hw]; auto.
    + eapply setInsert_sorted; eauto.
    + split; auto. split; auto. intros x. rewrite I3, (setInsert_In dim) by auto. simpl. intuition congruence.
Qed.

Lemma createDownSet_spec : forall dim spaces coeffs, Forall (fun w => length w = dim) spaces ->
  let r := createDownSet spaces coeffs in
  StronglySorted lexlt r /\
  forall k, In k r <-> exists f, In (f, 1) (combine spaces coeffs) /\ Forall2 (fun x y => 1 <= x <= y) k f.
Proof.
  intros dim spaces coeffs F. unfold createDownSet.
  assert (G : forall ps s, Forall (fun p : list Z * Z => length (fst p) = dim) ps -> Forall (fun w => length w = dim) s ->
    StronglySorted lexlt s ->
    let r := fold_left (fun set p => if snd p =? 1 then fold_left (fun s v => setInsert v s) (getDownSet (fst p)) set else set) ps s in
    StronglySorted lexlt r /\
    forall k, In k r <-> (exists f, In (f, 1) ps /\ Forall2 (fun x y => 1 <= x <= y) k f) \/ In k s).
  { induction ps as [|[f c] ps IH]; intros s Fp Fs SS; cbn [fold_left]; cbv zeta.
    - split; auto. intros k. split; auto. intros [[f [[] _]]|]; auto.
    - inv Fp. cbn [fst snd] in *. destruct (Z.eqb_spec c 1) as [->|NE].
      + assert (LD : Forall (fun w => length w = length f) (getDownSet f)).
        { apply Forall_forall. intros w Hw. apply getDownSet_In in Hw. apply Forall2_length in Hw. lia. }
        destruct (insertAll_spec (length f) (getDownSet f) s LD Fs SS) as (A1 & A2 & A3). cbv zeta in A1, A2, A3.
        destruct (IH _ H2 A2 A1) as [I1 I2]. split; auto. intros k. rewrite I2, A3.
        assert (DE : In k (getDownSet f) <-> Forall2 (fun x y => 1 <= x <= y) k f).
        { rewrite getDownSet_In. split; intros HF.
          - clear -HF. induction HF; constructor; auto.
          - clear -HF. induction HF; constructor; auto. }
        rewrite DE. split.
        * intros [[g [Hg Fg]]|[Hf|Hs]]; [left; exists g; simpl; auto|left; exists f; simpl; auto|right; auto].
        * intros [[g [[Hg|Hg] Fg]]|Hs]; [injection Hg; intros; subst; auto|left; exists g; auto|auto].
      + destruct (IH s H2 Fs SS) as [I1 I2]. split; auto. intros k. rewrite I2. split.
        * intros [[g [Hg Fg]]|Hs]; [left; exists g; simpl; auto|auto].
        * intros [[g [[Hg|Hg] Fg]]|Hs]; [injection Hg; intros; subst; congruence|left; exists g; auto|auto]. }
  destruct (G (combine spaces coeffs) []) as [G1 G2].
  - apply Forall_forall. intros [f c] Hp. apply in_combine_l in Hp. rewrite Forall_forall in F. auto.
  - constructor.
  - constructor.
  - split; auto. intros k. rewrite G2. simpl. split; [intros [H|[]]; auto|auto].
Qed.

(** * More on the classical scheme *)

Lemma coverage_witness : forall spaces coeffs k, coverage spaces coeffs k <> 0 ->
  exists s, In s spaces /\ vgeb s k = true.
Proof.
  unfold coverage. induction spaces as [|s sp IH]; intros co k H; cbn [combine filter map] in H.
  - now rewrite zsum_nil in H.
  - destruct co as [|c co]; cbn [combine filter map] in H; [now rewrite zsum_nil in H|]. cbn [fst] in H.
    destruct (vgeb s k) eqn:V; [exists s; simpl; auto|].
    destruct (IH co k H) as [t [It Vt]]. exists t. simpl. auto.
Qed.

Lemma weave_lex : forall m a b x, length a = countFalse m -> length b = countFalse m -> (countTrue m <= length x)%nat ->
  lexlt a b -> lexlt (weave m a x) (weave m b x).
Proof.
  induction m as [|[|] m IH]; intros a b x La Lb Lx H; cbn [weave countTrue countFalse] in *.
  - destruct a; [|simpl in La; lia]. inv H.
  - destruct x as [|y x]; [simpl in Lx; lia|]. apply lex_tail. apply IH; auto. simpl in Lx. lia.
  - destruct a as [|p a]; [simpl in La; lia|]. destruct b as [|q b]; [simpl in Lb; lia|]. inv H.
    + apply lex_head; auto.
    + apply lex_tail. apply IH; auto; simpl in *; lia.
Qed.

Lemma map_sorted : forall (A B : Type) (R : A -> A -> Prop) (Q : B -> B -> Prop) (f : A -> B) l,
  (forall x y, In x l -> In y l -> R x y -> Q (f x) (f y)) -> StronglySorted R l -> StronglySorted Q (map f l).
Proof.
  intros A B R Q f l H SS. induction SS as [|x l SS IH F]; cbn [map]; [constructor|]. constructor.
  - apply IH. intros. apply H; simpl; auto.
  - rewrite Forall_forall in *. intros y Hy. apply in_map_iff in Hy as [z [<- Hz]]. apply H; simpl; auto.
Qed.

Lemma trunc_len : forall lmax lmin v, lmax <> [] -> Forall2 Z.le lmin lmax -> In v (truncatedLevels lmax lmin) ->
  length v = length lmax.
Proof. intros lmax lmin v H1 H2 Hv. apply truncated_closed_form in Hv; tauto. Qed.

Lemma classical_levels_sorted : forall lmin lmax, Forall2 Z.le lmin lmax ->
  StronglySorted lexlt (sLevels (classicalScheme lmin lmax)).
Proof.
  intros lmin lmax F. destruct (list_eq_dec Z.eq_dec lmin lmax) as [->|N].
  - unfold classicalScheme, classicalSpaces.
    assert (E : eraseDummies (dummyMask lmax lmax) lmax = []).
    { clear. induction lmax; simpl; auto. destruct (Z.eqb_spec (a - a) 0); [auto|lia]. }
    rewrite E. cbn [sLevels]. repeat constructor.
  - destruct (classicalScheme_eq lmin lmax F N) as (_ & _ & _ & EL & _). cbv zeta in EL. rewrite EL.
    eapply map_sorted; [|unfold truncatedLevels; apply truncRec_sorted].
    intros a b Ha Hb H. pose proof (cl_maxr_len lmin lmax F) as LM.
    apply trunc_len in Ha; auto using cl_maxr_ne, cl_F2r. apply trunc_len in Hb; auto using cl_maxr_ne, cl_F2r.
    apply weave_lex; auto; try congruence. now apply cl_true_le.
Qed.

Lemma classical_spaces_sorted : forall lmin lmax, Forall2 Z.le lmin lmax -> lmin <> lmax ->
  StronglySorted lexlt (sSpaces (classicalScheme lmin lmax)).
Proof.
  intros lmin lmax F N. destruct (classicalScheme_eq lmin lmax F N) as (_ & _ & _ & _ & ES & _). cbv zeta in ES. rewrite ES.
  eapply map_sorted; [|apply filter_sorted; unfold truncatedLevels; apply truncRec_sorted].
  intros a b Ha Hb H. pose proof (cl_maxr_len lmin lmax F) as LM. apply filter_In in Ha as [Ha _]. apply filter_In in Hb as [Hb _].
  apply trunc_len in Ha; auto using cl_maxr_ne, cl_F2r. apply trunc_len in Hb; auto using cl_maxr_ne, cl_F2r.
  apply weave_lex; auto; try congruence. now apply cl_true_le.
Qed.

Lemma classical_levels_length : forall lmin lmax l, Forall2 Z.le lmin lmax -> lmin <> lmax ->
  In l (sLevels (classicalScheme lmin lmax)) -> length l = length lmax.
Proof.
  intros lmin lmax l F N Hl. destruct (classicalScheme_eq lmin lmax F N) as (_ & _ & _ & EL & _). cbv zeta in EL.
  rewrite EL in Hl. apply in_map_iff in Hl as [v [<- Hv]]. apply trunc_len in Hv; auto using cl_maxr_ne, cl_F2r.
  rewrite weave_length.
  - apply Forall2_length in F. unfold dummyMask. rewrite map2_length; lia.
  - rewrite Hv. now apply cl_maxr_len.
  - now apply cl_true_le.
Qed.

(** Every level of the down set lies below a grid of the scheme. *)
Lemma classical_levels_covered : forall lmin lmax k, Forall2 Z.le lmin lmax -> lmin <> lmax ->
  Forall (fun x => 1 <= x) lmin -> In k (sLevels (classicalScheme lmin lmax)) ->
  exists f, In f (sSpaces (classicalScheme lmin lmax)) /\ Forall2 Z.le k f.
Proof.
  intros lmin lmax k F N P Hk.
  assert (R : Forall2 Z.le k k) by (clear; induction k; constructor; auto; lia).
  pose proof (classical_unity_below lmin lmax F P N k k Hk R) as U.
  destruct (coverage_witness _ _ _ ltac:(rewrite U; discriminate)) as [s [Is V]]. exists s. split; auto.
  apply vgeb_spec; auto. apply spaces_in_levels in Is; auto.
  apply classical_levels_length in Is; auto. apply classical_levels_length in Hk; auto. congruence.
Qed.

Lemma no_dummies : forall lmin lmax, Forall2 Z.lt lmin lmax ->
  eraseDummies (dummyMask lmin lmax) lmax = lmax /\ eraseDummies (dummyMask lmin lmax) lmin = lmin /\
  countTrue (dummyMask lmin lmax) = 0%nat /\ forall v x, length v = length lmax -> weave (dummyMask lmin lmax) v x = v.
Proof.
  unfold dummyMask. induction 1 as [|a b lmin lmax H F (I1 & I2 & I3 & I4)]; cbn [map2 eraseDummies countTrue].
  - repeat split; auto. intros v x L. destruct v; [reflexivity|simpl in L; lia].
  - destruct (Z.eqb_spec (b - a) 0); [lia|]. rewrite I1, I2, I3. repeat split; auto.
    intros v x L. destruct v as [|y v]; [simpl in L; lia|]. cbn [weave]. rewrite I4; auto.
Qed.

Lemma classical_levels_exact : forall lmin lmax k, Forall2 Z.lt lmin lmax -> lmin <> [] -> Forall (fun x => 1 <= x) lmin ->
  (In k (sLevels (classicalScheme lmin lmax)) <->
   exists f, In f (sSpaces (classicalScheme lmin lmax)) /\ Forall2 (fun x y => 1 <= x <= y) k f).
Proof.
  intros lmin lmax k FL Hne P.
  assert (F : Forall2 Z.le lmin lmax) by (clear -FL; induction FL; constructor; auto; lia).
  assert (N : lmin <> lmax) by (intros ->; destruct lmax; [congruence|]; inv FL; lia).
  destruct (classicalScheme_eq lmin lmax F N) as (_ & _ & _ & EL & _). cbv zeta in EL.
  destruct (no_dummies lmin lmax FL) as (E1 & E2 & E3 & E4). rewrite E1, E2 in EL.
  assert (Hm : lmax <> []) by (intros ->; inv FL; congruence).
  assert (LE : forall v, In v (sLevels (classicalScheme lmin lmax)) <-> In v (truncatedLevels lmax lmin)).
  { intros v. rewrite EL. rewrite in_map_iff. split.
    - intros [w [<- Hw]]. rewrite E4; auto. apply trunc_len in Hw; auto.
    - intros Hv. exists v. split; auto. apply E4. apply trunc_len in Hv; auto. }
  split.
  - intros Hk. destruct (classical_levels_covered lmin lmax k F N P Hk) as [f [If Ff]]. exists f. split; auto.
    apply LE in Hk. apply truncated_closed_form in Hk as (_ & Pk & _); auto. clear -Ff Pk.
    induction Ff; constructor; inv Pk; auto.
  - intros [f [If Ff]]. apply spaces_in_levels in If; auto. apply LE in If. apply LE.
    apply truncated_closed_form in If as (Lf & _ & Ef); auto. apply truncated_closed_form; auto.
    apply Forall2_length in Ff as Lk. split; [congruence|].
    assert (G : Forall2 Z.le k f) by (clear -Ff; induction Ff; constructor; auto; lia).
    split; [clear -Ff; induction Ff; constructor; auto; lia|].
    pose proof (excess_mono k f (map (fun x => x - minElement (map2 Z.sub lmax lmin)) lmax) G). lia.
Qed.

Lemma coeffLoop_short : forall k eff n spaces i acc fuel, (i + k = length spaces)%nat -> (length spaces <= 255)%nat ->
  (k < fuel)%nat ->
  classicalCoeffLoop fuel eff n spaces (Z.of_nat i) acc = Some (acc ++ map (classicalCoeff eff n) (skipn i spaces)).
Proof.
  induction k as [|k IH]; intros eff n spaces i acc fuel Hi H255 Hf; (destruct fuel as [|fuel]; [lia|]); cbn [classicalCoeffLoop].
  - destruct (Z.ltb_spec (Z.of_nat i) (Z.of_nat (length spaces))); [lia|].
    rewrite skipn_all2 by lia. cbn [map]. now rewrite app_nil_r.
  - destruct (Z.ltb_spec (Z.of_nat i) (Z.of_nat (length spaces))); [|lia].
    rewrite Z.mod_small by lia. replace (Z.of_nat i + 1) with (Z.of_nat (S i)) by lia.
    rewrite IH by lia. rewrite Nat2Z.id, <- app_assoc. cbn [app]. f_equal. f_equal.
    assert (SK : skipn i spaces = nth i spaces [] :: skipn (S i) spaces).
    { assert (Hlt : (i < length spaces)%nat) by lia. clear -Hlt. revert i Hlt.
      induction spaces; intros [|i] H; simpl in *; try lia; auto. apply IHspaces. lia. }
    rewrite SK. reflexivity.
Qed.

Lemma coeffLoop_endless : forall fuel eff n spaces i acc, (255 < length spaces)%nat -> 0 <= i < 256 ->
  classicalCoeffLoop fuel eff n spaces i acc = None.
Proof.
  induction fuel as [|fuel IH]; intros eff n spaces i acc HL Hi; auto. cbn [classicalCoeffLoop].
  destruct (Z.ltb_spec i (Z.of_nat (length spaces))); [|lia]. apply IH; auto. apply Z.mod_pos_bound. lia.
Qed.
