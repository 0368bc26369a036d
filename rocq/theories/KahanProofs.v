(** Error analysis of compensated summation. *)
From Verif Require Import Base HierMassProofs QcTools KahanModel.
From Coq Require Import QArith Qcanon.
Open Scope Z_scope.
Ltac Zify.zify_post_hook ::= idtac.

(** Every operation is accurate up to the relative error [u]. *)
Definition accurate (u : Qc) (rnd : Qc -> Qc) : Prop := forall z, (qabs (rnd z - z) <= u * qabs z)%Qc.

Lemma q_mul_le : forall u a b : Q, (0 <= u)%Q -> (a <= b)%Q -> (u * a <= u * b)%Q.
Proof. intros u a b Hu H. rewrite !(Qmult_comm u). now apply Qmult_le_compat_r. Qed.

(** The bounds of one step. *)
Lemma step_bounds : forall u A X S C P D1 Y D2 D3 D4 : Q, (0 <= u)%Q -> (u <= 1 # 64)%Q -> (0 <= A)%Q -> (0 <= X)%Q ->
  (S <= (3 # 2) * X)%Q -> (C <= 3 * (u * X))%Q -> (P <= A + C)%Q -> (D1 <= u * P)%Q -> (Y <= P + D1)%Q -> (D2 <= u * (S + Y))%Q ->
  (D3 <= u * (Y + D2))%Q -> (D4 <= u * (D2 + D3))%Q ->
  (D2 + D3 + D4 <= 3 * (u * (X + A)))%Q /\ (D1 + D3 + D4 <= 2 * (u * A) + 12 * (u * (u * (X + A))))%Q.
Proof.
  intros u A X S C P D1 Y D2 D3 D4 Hu H64 HA HX HS HC HP HD1 HY HD2 HD3 HD4.
  set (uA := (u * A)%Q). set (uX := (u * X)%Q). set (uuA := (u * uA)%Q). set (uuX := (u * uX)%Q).
  set (uuuA := (u * uuA)%Q). set (uuuX := (u * uuX)%Q).
  assert (M : forall a, (0 <= a)%Q -> (0 <= u * a)%Q /\ (u * a <= (1 # 64) * a)%Q).
  { intros a Ha. split; [now apply Qmult_le_0_compat|now apply Qmult_le_compat_r]. }
  destruct (M A HA) as [a1 a2]. destruct (M X HX) as [x1 x2]. fold uA in a1, a2. fold uX in x1, x2.
  destruct (M uA a1) as [a3 a4]. destruct (M uX x1) as [x3 x4]. fold uuA in a3, a4. fold uuX in x3, x4.
  destruct (M uuA a3) as [a5 a6]. destruct (M uuX x3) as [x5 x6]. fold uuuA in a5, a6. fold uuuX in x5, x6.
  fold uX in HC.
  assert (B1 : (P <= A + 3 * uX)%Q) by lra.
  assert (B2 : (D1 <= uA + 3 * uuX)%Q).
  { apply (Qle_trans _ _ _ HD1). apply (Qle_trans _ _ _ (q_mul_le u _ _ Hu B1)). unfold uA, uuX, uX. apply Qle_lteq. right. ring. }
  assert (B3 : (Y <= A + uA + 3 * uX + 3 * uuX)%Q) by lra.
  assert (B4 : (u * Y <= uA + uuA + 3 * uuX + 3 * uuuX)%Q).
  { apply (Qle_trans _ _ _ (q_mul_le u _ _ Hu B3)). unfold uA, uuA, uuuX, uuX, uX, uA. apply Qle_lteq. right. ring. }
  assert (B5 : (S + Y <= (3 # 2) * X + A + uA + 3 * uX + 3 * uuX)%Q) by lra.
  assert (B6 : (D2 <= (3 # 2) * uX + uA + uuA + 3 * uuX + 3 * uuuX)%Q).
  { apply (Qle_trans _ _ _ HD2). apply (Qle_trans _ _ _ (q_mul_le u _ _ Hu B5)). unfold uA, uuA, uuuX, uuX, uX, uA. apply Qle_lteq. right. ring. }
  assert (B7 : (D2 <= (3 # 2) * uX + uA + (1 # 64) * uA + (3 # 64) * uX + (3 # 64) * uX)%Q) by lra.
  assert (B8 : (u * D2 <= (102 # 64) * uuX + (65 # 64) * uuA)%Q).
  { apply (Qle_trans _ _ _ (q_mul_le u _ _ Hu B7)). unfold uA, uuA, uuX, uX, uA. apply Qle_lteq. right. ring. }
  assert (B9 : (D3 <= uA + uuA + 3 * uuX + 3 * uuuX + (102 # 64) * uuX + (65 # 64) * uuA)%Q) by lra.
  assert (B10 : (D3 <= (67 # 64) * uA + (5 # 64) * uX)%Q) by lra.
  assert (B11 : (u * D3 <= (67 # 64) * uuA + (5 # 64) * uuX)%Q).
  { apply (Qle_trans _ _ _ (q_mul_le u _ _ Hu B10)). unfold uuA, uuX, uX, uA. apply Qle_lteq. right. ring. }
  assert (B12 : (D4 <= (107 # 64) * uuX + (132 # 64) * uuA)%Q) by lra.
  assert (E1 : (u * (X + A) == uX + uA)%Q) by (unfold uX, uA; ring).
  assert (E2 : (u * (u * (X + A)) == uuX + uuA)%Q) by (unfold uuX, uuA, uX, uA; ring).
  split.
  - rewrite E1. lra.
  - rewrite E2. fold uA. lra.
Qed.

Lemma qabs_nonneg : forall a, (0 <= qabs a)%Qc.
Proof. intros a. destruct (qabs_cases a) as [[L ->]|[L ->]]; qlra. Qed.
Lemma qabs_opp : forall a, qabs (- a)%Qc = qabs a.
Proof. intros a. destruct (qabs_cases a) as [[L ->]|[L ->]]; [rewrite qabs_pos by qlra|rewrite qabs_neg by qlra]; qlra. Qed.
Lemma qabs_add : forall a b, (qabs (a + b) <= qabs a + qabs b)%Qc.
Proof. intros a b. destruct (qabs_cases a) as [[L ->]|[L ->]], (qabs_cases b) as [[M ->]|[M ->]], (qabs_cases (a + b)%Qc) as [[N ->]|[N ->]]; qlra. Qed.
Lemma qabs_sub : forall a b, (qabs (a - b) <= qabs a + qabs b)%Qc.
Proof. intros a b. unfold Qcminus. rewrite <- (qabs_opp b). apply qabs_add. Qed.
Lemma qabs_0 : qabs 0%Qc = 0%Qc.
Proof. reflexivity. Qed.
Lemma qsum_app1 : forall l x, qsum (l ++ [x]) = (qsum l + x)%Qc.
Proof. induction l as [|a l IH]; intros x; cbn [app qsum fold_right]; [ring|]. unfold qsum in *. rewrite IH. ring. Qed.
Lemma qsum_abs_nonneg : forall l, (0 <= qsum (map qabs l))%Qc.
Proof. induction l as [|a l IH]; [apply Qcle_refl|]. cbn [map qsum fold_right]. fold (qsum (map qabs l)). pose proof (qabs_nonneg a). qlra. Qed.
Lemma qabs_qsum : forall l, (qabs (qsum l) <= qsum (map qabs l))%Qc.
Proof.
  induction l as [|a l IH]; [apply Qcle_refl|]. cbn [map qsum fold_right]. fold (qsum (map qabs l)). fold (qsum l).
  pose proof (qabs_add a (qsum l)). qlra.
Qed.

Lemma kahan_snoc : forall rnd xs x st, kahanSum rnd (xs ++ [x]) st = kahanStep rnd (kahanSum rnd xs st) x.
Proof. intros. unfold kahanSum. now rewrite fold_left_app. Qed.

Section Error.
Variables (u : Qc) (rnd : Qc -> Qc).
Hypothesis Hu : (0 <= u)%Qc.
Hypothesis H64 : (u * zq 64 <= 1)%Qc.
Hypothesis HA : accurate u rnd.

Lemma u_64 : (this u <= 1 # 64)%Q.
Proof.
  pose proof H64 as H. unfold Qcle in H. rewrite this_mult, this_zq, this_1 in H. change (inject_Z 64) with 64%Q in H. lra.
Qed.

Lemma kahan_invariant : forall xs, (zq (Z.of_nat (length xs)) * u <= 1)%Qc ->
  let st := kahanSum rnd xs (0, 0)%Qc in
  let X := qsum (map qabs xs) in
  (qabs (snd st) <= zq 3 * (u * X))%Qc /\
  (qabs (fst st - snd st - qsum xs) <= zq 2 * (u * X) + zq 12 * (zq (Z.of_nat (length xs)) * (u * (u * X))))%Qc.
Proof.
  induction xs as [|x xs IH] using rev_ind; intros Hn.
  - cbn [kahanSum fold_left fst snd map qsum fold_right length]. change (Z.of_nat 0) with 0%Z. rewrite zq_0. split.
    + rewrite qabs_0. qlra.
    + replace (0 - 0 - 0)%Qc with 0%Qc by ring. rewrite qabs_0. qlra.
  - cbv zeta in *. rewrite kahan_snoc. rewrite app_length in *. cbn [length] in *. rewrite Nat2Z.inj_add in *. change (Z.of_nat 1) with 1 in *.
    rewrite zq_add, zq_1 in *. set (n := zq (Z.of_nat (length xs))) in *.
    assert (Hn0 : (0 <= n)%Qc) by (apply (zq_le 0); lia).
    destruct IH as [IC IE]; [qlra|].
    rewrite map_app. cbn [map]. rewrite !qsum_app1. pose proof (qabs_qsum xs) as HS. pose proof (qsum_abs_nonneg xs) as HX.
    set (st := kahanSum rnd xs (0, 0)%Qc) in *. destruct st as [s c]. set (X := qsum (map qabs xs)) in *. set (sigma := qsum xs) in *.
    cbn [fst snd] in *. clearbody n X sigma. unfold kahanStep. cbn [fst snd].
    pose proof (HA (x - c)%Qc) as R1. set (y := rnd (x - c)%Qc) in *.
    pose proof (HA (s + y)%Qc) as R2. set (t := rnd (s + y)%Qc) in *.
    pose proof (HA (t - s)%Qc) as R3. set (w := rnd (t - s)%Qc) in *.
    pose proof (HA (w - y)%Qc) as R4. set (c' := rnd (w - y)%Qc) in *.
    set (d1 := (y - (x - c))%Qc) in *. set (d2 := (t - (s + y))%Qc) in *. set (d3 := (w - (t - s))%Qc) in *. set (d4 := (c' - (w - y))%Qc) in *.
    assert (Ec : c' = (d2 + d3 + d4)%Qc) by (unfold d2, d3, d4; ring).
    assert (Ee : (t - c' - (sigma + x))%Qc = (s - c - sigma + (d1 - d3 - d4))%Qc) by (unfold d1, d3, d4; ring).
    assert (Ey : y = (x - c + d1)%Qc) by (unfold d1; ring).
    assert (Ets : (t - s)%Qc = (y + d2)%Qc) by (unfold d2; ring).
    assert (Ewy : (w - y)%Qc = (d2 + d3)%Qc) by (unfold d2, d3; ring).
    assert (Es : s = (sigma + c + (s - c - sigma))%Qc) by ring.
    rewrite Ee, Ec. rewrite Ets in R3. rewrite Ewy in R4.
    pose proof (qabs_sub x c) as T1. pose proof (qabs_add (x - c)%Qc d1) as T2. rewrite <- Ey in T2.
    pose proof (qabs_add s y) as T3. pose proof (qabs_add y d2) as T4. pose proof (qabs_add d2 d3) as T5.
    pose proof (qabs_add (d2 + d3)%Qc d4) as T6. pose proof (qabs_add (s - c - sigma)%Qc (d1 - d3 - d4)%Qc) as T7.
    pose proof (qabs_sub (d1 - d3)%Qc d4) as T8. pose proof (qabs_sub d1 d3) as T9.
    pose proof (qabs_add (sigma + c)%Qc (s - c - sigma)%Qc) as T10. rewrite <- Es in T10. pose proof (qabs_add sigma c) as T11.
    pose proof (qabs_nonneg x) as Nx. pose proof u_64 as U. pose proof Hu as U0.
    clear Ec Ee Ey Ets Ewy Es. clearbody d1 d2 d3 d4 y t w c'. clear HA.
    assert (MU : forall a b : Qc, (a <= b)%Qc -> (u * a <= u * b)%Qc).
    { intros a b H. rewrite !(Qcmult_comm u). now apply Qcmult_le_compat_r. }
    assert (MX : (n * (u * (u * X)) <= u * X)%Qc).
    { replace (n * (u * (u * X)))%Qc with (n * u * (u * X))%Qc by ring. replace (u * X)%Qc with (1 * (u * X))%Qc at 2 by ring.
      apply Qcmult_le_compat_r; [qlra|]. pose proof (MU 0%Qc X HX) as K. replace (u * 0)%Qc with 0%Qc in K by ring. exact K. }
    destruct (step_bounds (this u) (this (qabs x)) (this X) (this (qabs s)) (this (qabs c)) (this (qabs (x - c)%Qc)) (this (qabs d1)) (this (qabs y))
      (this (qabs d2)) (this (qabs d3)) (this (qabs d4))) as [G1 G2]; auto.
    + assert (K : (u * X * zq 64 <= X)%Qc).
      { replace (u * X * zq 64)%Qc with (u * zq 64 * X)%Qc by ring. replace X with (1 * X)%Qc at 2 by ring. now apply Qcmult_le_compat_r. }
      clear - K MX IC IE T10 T11 HS HX Hn0 U0. set (uX := (u * X)%Qc) in *. set (nuuX := (n * (u * uX))%Qc) in *. clearbody uX nuuX.
      toQ. rewrite ?this_zq in *. change (inject_Z 64) with 64%Q in *. change (inject_Z 3) with 3%Q in *. change (inject_Z 2) with 2%Q in *.
      change (inject_Z 12) with 12%Q in *. lra.
    + clear - IC. toQ. rewrite ?this_zq in *. exact IC.
    + clear - T1. toQ. exact T1.
    + clear - R1. toQ. exact R1.
    + clear - T2. toQ. exact T2.
    + clear - R2 T3 MU. pose proof (MU _ _ T3). toQ. lra.
    + clear - R3 T4 MU. pose proof (MU _ _ T4). toQ. lra.
    + clear - R4 T5 MU. pose proof (MU _ _ T5). toQ. lra.
    + split.
      * clear - G1 T5 T6. toQ. rewrite this_zq. change (inject_Z 3) with 3%Q. lra.
      * assert (MN : (n * (u * (u * X)) + u * (u * (X + qabs x)) <= (n + 1) * (u * (u * (X + qabs x))))%Qc).
        { assert (K : (0 <= n * (u * (u * qabs x)))%Qc).
          { pose proof (MU _ _ Nx) as K1. replace (u * 0)%Qc with 0%Qc in K1 by ring. pose proof (MU _ _ K1) as K2. replace (u * 0)%Qc with 0%Qc in K2 by ring.
            pose proof (Qcmult_le_compat_r 0 n _ Hn0 K2) as K3. replace (0 * (u * (u * qabs x)))%Qc with 0%Qc in K3 by ring. exact K3. }
          replace ((n + 1) * (u * (u * (X + qabs x))))%Qc with (n * (u * (u * X)) + u * (u * (X + qabs x)) + n * (u * (u * qabs x)))%Qc by ring.
          clear - K. qlra. }
        clear - G2 T7 T8 T9 IE MN. replace (u * (X + qabs x))%Qc with (u * X + u * qabs x)%Qc in * by ring.
        set (nX := (n * (u * (u * X)))%Qc) in *. set (uX := (u * X)%Qc) in *. set (uA := (u * qabs x)%Qc) in *. set (V := (u * (uX + uA))%Qc) in *.
        set (nV := ((n + 1) * V)%Qc) in *.
        assert (EV : (this V == this u * (this u * (this X + this (qabs x))))%Q) by (unfold V, uX, uA; rewrite !this_mult, !this_plus, !this_mult; ring).
        assert (EA : (this uA == this u * this (qabs x))%Q) by (unfold uA; now rewrite this_mult).
        rewrite <- EV, <- EA in G2. clear EV EA. clearbody nV V uA uX nX. toQ. rewrite ?this_zq in *. change (inject_Z 2) with 2%Q in *.
        change (inject_Z 12) with 12%Q in *. lra.
Qed.
End Error.

(** Rounding towards zero to floating-point numbers with at least [p] significant binary digits and unbounded exponent. *)
Definition fpRound (p : Z) (x : Qc) : Qc :=
  let n := Z.abs (Qnum (this x)) in
  let d := Zpos (Qden (this x)) in
  if n =? 0 then 0%Qc
  else let s := p - (Z.log2 n - Z.log2 d) in
       let m := n * 2 ^ Z.max s 0 / (d * 2 ^ Z.max (- s) 0) in
       Q2Qc (Z.sgn (Qnum (this x)) * (m * 2 ^ Z.max (- s) 0) # Z.to_pos (2 ^ Z.max s 0)).

Lemma fpRound_accurate : forall p, 1 <= p -> accurate (Q2Qc (1 # Z.to_pos (2 ^ (p - 1)))) (fpRound p).
Proof.
  intros p Hp z. unfold fpRound. set (N := Qnum (this z)). set (d := Zpos (Qden (this z))). set (n := Z.abs N).
  assert (Hd : 0 < d) by reflexivity.
  assert (Ez : (this z == N # Qden (this z))%Q) by (unfold N; destruct (this z); reflexivity).
  destruct (Z.eqb_spec n 0) as [E0|N0].
  { assert (N = 0) by lia. assert (Z0 : z = 0%Qc) by (apply Qc_is_canon; rewrite Ez; rewrite H; reflexivity).
    rewrite Z0. replace (0 - 0)%Qc with 0%Qc by ring. rewrite qabs_0, Qcmult_0_r. apply Qcle_refl. }
  assert (Hn : 0 < n) by lia. set (s := p - (Z.log2 n - Z.log2 d)). set (A := 2 ^ Z.max s 0). set (B := 2 ^ Z.max (- s) 0). set (P := 2 ^ (p - 1)).
  assert (HA : 0 < A) by (apply Z.pow_pos_nonneg; lia). assert (HB : 0 < B) by (apply Z.pow_pos_nonneg; lia). assert (HP : 0 < P) by (apply Z.pow_pos_nonneg; lia).
  set (m := n * A / (d * B)).
  assert (C : d * B * P <= n * A).
  { destruct (Z.log2_spec n Hn) as [L1 _]. destruct (Z.log2_spec d Hd) as [_ L2]. pose proof (Z.log2_nonneg n). pose proof (Z.log2_nonneg d).
    apply Z.le_trans with (2 ^ Z.succ (Z.log2 d) * B * P).
    - apply Z.mul_le_mono_nonneg_r; [lia|]. apply Z.mul_le_mono_nonneg_r; lia.
    - apply Z.le_trans with (2 ^ Z.log2 n * A); [|apply Z.mul_le_mono_nonneg_r; lia].
      unfold A, B, P. rewrite <- !Z.pow_add_r by lia. apply Z.pow_le_mono_r; lia. }
  assert (M1 : m * (d * B) <= n * A) by (rewrite Z.mul_comm; apply Z.mul_div_le; nia).
  assert (M2 : n * A < (m + 1) * (d * B)). { pose proof (Z.mul_succ_div_gt (n * A) (d * B) ltac:(nia)). fold m in H. lia. }
  clearbody m. clear - Ez Hd HA HB HP C M1 M2 Hn.
  assert (EA : Zpos (Z.to_pos A) = A) by (apply Z2Pos.id; lia). assert (EP : Zpos (Z.to_pos P) = P) by (apply Z2Pos.id; lia).
  set (r := Q2Qc (Z.sgn N * (m * B) # Z.to_pos A)). set (x0 := Q2Qc (n # Qden (this z))). set (r0 := Q2Qc (m * B # Z.to_pos A)).
  assert (Lo : (r0 <= x0)%Qc). { unfold Qcle, r0, x0. rewrite !this_Q2Qc. unfold Qle. cbn [Qnum Qden]. fold d. rewrite EA. nia. }
  assert (Hi : (x0 - r0 <= Q2Qc (1 # Z.to_pos P) * x0)%Qc).
  { unfold Qcle. rewrite this_minus, this_mult. unfold r0, x0. rewrite !this_Q2Qc. unfold Qle, Qminus, Qplus, Qopp, Qmult. cbn [Qnum Qden].
    rewrite !Pos2Z.inj_mul, EA, EP. fold d. nia. }
  assert (X0 : (0 <= x0)%Qc). { unfold Qcle, x0. rewrite !this_Q2Qc. unfold Qle. cbn [Qnum Qden]. lia. }
  destruct (Z_lt_le_dec N 0) as [Neg|Pos].
  - assert (Er : r = (- r0)%Qc). { apply Qc_is_canon. rewrite this_opp. unfold r, r0. rewrite !this_Q2Qc. rewrite Z.sgn_neg by auto. unfold Qeq, Qopp. cbn [Qnum Qden]. ring. }
    assert (Ex : z = (- x0)%Qc). { apply Qc_is_canon. rewrite this_opp, Ez. unfold x0. rewrite this_Q2Qc. unfold n. rewrite Z.abs_neq by lia. unfold Qeq, Qopp. cbn [Qnum Qden]. ring. }
    rewrite Er. assert (Q0 : qabs z = x0) by (rewrite Ex, qabs_opp, qabs_pos; auto). rewrite Q0, Ex.
    replace (- r0 - - x0)%Qc with (x0 - r0)%Qc by ring. rewrite qabs_pos by (clear - Lo; qlra). exact Hi.
  - assert (Er : r = r0). { apply Qc_is_canon. unfold r, r0. rewrite !this_Q2Qc. rewrite Z.sgn_pos by lia. rewrite Z.mul_1_l. reflexivity. }
    assert (Ex : z = x0). { apply Qc_is_canon. rewrite Ez. unfold x0. rewrite this_Q2Qc. unfold n. rewrite Z.abs_eq by lia. reflexivity. }
    rewrite Er. assert (Q0 : qabs z = x0) by (rewrite Ex, qabs_pos; auto). rewrite Q0. rewrite Ex at 1.
    rewrite <- qabs_opp. replace (- (r0 - x0))%Qc with (x0 - r0)%Qc by ring. rewrite qabs_pos by (clear - Lo; qlra). exact Hi.
Qed.
