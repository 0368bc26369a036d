(** Model of src/combischeme/CombiMinMaxScheme.cpp and .hpp (class CombiMinMaxScheme). Coefficients are small integers;
    the code stores them as double, which represents them exactly, and takes the binomial coefficient from boost (taken
    by its specification). Levels are unbounded integers. *)
From Verif Require Import Base TensorModel LevelSetsModel.

(** A scheme: combiSpaces_, coefficients_, levels_ (the down set) and the members used by later calls. *)
Record Scheme := { sSpaces : list (list Z); sCoeffs : list Z; sLevels : list (list Z);
                   sLmin : list Z; sN : Z; sEffDim : nat }.

(** CombiMinMaxScheme.cpp:16-22: true where a dimension is a dummy. *)
Definition dummyMask (lmin lmax : list Z) : list bool := map2 (fun a b => b - a =? 0) lmin lmax.
(** lmaxtmp, lmintmp after erasing the dummies. *)
Fixpoint eraseDummies (mask : list bool) (v : list Z) : list Z :=
  match mask, v with
  | b :: m', x :: v' => if b then eraseDummies m' v' else x :: eraseDummies m' v'
  | _, _ => []
  end.
(** dummyDims: the positions of the dummies, ascending. *)
Fixpoint dummyDims (mask : list bool) (i : nat) : list nat :=
  match mask with
  | [] => []
  | b :: m' => if b then i :: dummyDims m' (S i) else dummyDims m' (S i)
  end.

(** CombiMinMaxScheme.hpp:46-50: effDim_. *)
Definition effDim (lmin lmax : list Z) : nat :=
  length lmax - length (filter (fun d => d =? 0) (map2 Z.sub lmax lmin)).

(** CombiMinMaxScheme.cpp:34-38: c. *)
Fixpoint allEqual (l : list Z) : bool :=
  match l with x :: (y :: _) as r => (x =? y) && allEqual r | _ => true end.
Definition schemeC (cv : list Z) (eff : nat) : Z := if allEqual cv then nth (eff - 1) cv 0 else minElement cv.

(** vector::insert(begin() + pos, x). *)
Definition insertAt (pos : nat) (x : Z) (v : list Z) : list Z := firstn pos v ++ x :: skipn pos v.

(** CombiMinMaxScheme.cpp:45-48 for one level vector: the i-th dummy dimension receives lmax_[i] (sic). *)
Definition reinsert (dims : list nat) (lmax : list Z) (v : list Z) : list Z :=
  fold_left (fun w p => insertAt (fst p) (snd p) w) (combine dims lmax) v.
(** CombiMinMaxScheme.cpp:39-41 and 49. *)
Definition newLmin (dims : list nat) (lmax : list Z) (c : Z) : list Z :=
  fold_left (fun w p => upd w (fst p) (snd p)) (combine dims lmax) (map (fun x => x - c) lmax).

(** CombiMinMaxScheme.cpp:53-58; also 107-115 with another range of diagonals. *)
Definition spacesOnDiagonals (levels : list (list Z)) (lmin : list Z) (n : Z) (ps : list Z) : list (list Z) :=
  flat_map (fun l => flat_map (fun p => if vgeb l lmin && (levelSum l =? n - p) then [l] else []) ps) levels.

(** boost::math::binomial_coefficient. *)
Fixpoint binom (n k : nat) : Z :=
  match n, k with
  | _, O => 1
  | O, S _ => 0
  | S n', S k' => binom n' k' + binom n' (S k')
  end.

(** std::pow(-1, p). *)
Definition signPow (p : Z) : Z := if Z.even p then 1 else -1.

(** CombiMinMaxScheme.cpp:142-146: the coefficient of one grid. *)
Definition classicalCoeff (eff : nat) (n : Z) (l : list Z) : Z :=
  let p := n - levelSum l in signPow p * binom (eff - 1) (Z.to_nat p).

(** CombiMinMaxScheme.cpp:140-148: the loop, whose counter is an 8-bit unsigned integer (DimType). [None]: not finished
    after [fuel] iterations. *)
Fixpoint classicalCoeffLoop (fuel : nat) (eff : nat) (n : Z) (spaces : list (list Z)) (i : Z) (acc : list Z)
  : option (list Z) :=
  match fuel with
  | O => None
  | S f => if i <? Z.of_nat (length spaces)
           then classicalCoeffLoop f eff n spaces ((i + 1) mod 256)
                  (acc ++ [classicalCoeff eff n (nth (Z.to_nat i) spaces [])])
           else Some acc
  end.

(** CombiMinMaxScheme.cpp:5-59, createClassicalCombischeme up to the computation of the coefficients; sCoeffs is left
    empty except in the early return of lines 23-28. *)
Definition classicalSpaces (lmin lmax : list Z) : Scheme :=
  let mask := dummyMask lmin lmax in
  let lmaxtmp := eraseDummies mask lmax in
  let lmintmp := eraseDummies mask lmin in
  let eff := effDim lmin lmax in
  match lmintmp with
  | [] => {| sSpaces := []; sCoeffs := [1]; sLevels := [lmin]; sLmin := lmin; sN := 0; sEffDim := eff |}
  | _ =>
      let c := schemeC (map2 Z.sub lmaxtmp lmintmp) eff in
      let dims := dummyDims mask 0 in
      let levels := map (reinsert dims lmax) (truncatedLevels lmaxtmp lmintmp) in
      let lmin' := newLmin dims lmax c in
      let n := levelSum lmin' + c in
      {| sSpaces := spacesOnDiagonals levels lmin' n (zrange 0 (Z.of_nat eff)); sCoeffs := []; sLevels := levels;
         sLmin := lmin'; sN := n; sEffDim := eff |}
  end.

(** The whole of createClassicalCombischeme when the coefficient loop ends (see classicalCoeffLoop). *)
Definition classicalScheme (lmin lmax : list Z) : Scheme :=
  let s := classicalSpaces lmin lmax in
  {| sSpaces := sSpaces s; sCoeffs := sCoeffs s ++ map (classicalCoeff (sEffDim s) (sN s)) (sSpaces s);
     sLevels := sLevels s; sLmin := sLmin s; sN := sN s; sEffDim := sEffDim s |}.

(** CombiMinMaxScheme.cpp:103-116, makeFaultTolerant. *)
Definition makeFaultTolerant (lmax : list Z) (s : Scheme) : Scheme :=
  if list_eq_dec Z.eq_dec (sLmin s) lmax then s
  else
    let extra := spacesOnDiagonals (sLevels s) (sLmin s) (sN s)
                   (zrange (Z.of_nat (sEffDim s)) (Z.of_nat (sEffDim s) + 2)) in
    {| sSpaces := sSpaces s ++ extra; sCoeffs := sCoeffs s ++ map (fun _ => 0) extra; sLevels := sLevels s;
       sLmin := sLmin s; sN := sN s; sEffDim := sEffDim s |}.

(** CombiMinMaxScheme.cpp:118-128: coefficient of entry [s], reading the current (partly overwritten) list. *)
Definition adaptiveCoeff (spaces : list (list Z)) (s : list Z) : Z :=
  let tmp := vadd s (map (fun _ => 1) s) in
  fold_left (fun acc nbr => if vgeb nbr s && vleb nbr tmp then acc + signPow (levelSum (vsub nbr s)) else acc) spaces 0.

(** CombiMinMaxScheme.cpp:119-132: the loop over [i], overwriting entries with coefficient 0 by the zero vector. *)
Fixpoint adaptiveLoop (k i : nat) (spaces : list (list Z)) (coeffs : list Z) : list (list Z) * list Z :=
  match k with
  | O => (spaces, coeffs)
  | S k' =>
      let s := nth i spaces [] in
      let co := adaptiveCoeff spaces s in
      let spaces' := if co =? 0 then upd spaces i (map (fun _ => 0) s) else spaces in
      adaptiveLoop k' (S i) spaces' (coeffs ++ [co])
  end.

Definition isZeroVec (v : list Z) : bool := forallb (fun x => x =? 0) v.

(** CombiMinMaxScheme.cpp:118-138, computeCombiCoeffsAdaptive. *)
Definition adaptiveCoeffs (spaces : list (list Z)) : list (list Z) * list Z :=
  let (sp, co) := adaptiveLoop (length spaces) 0 spaces [] in
  (filter (fun v => negb (isZeroVec v)) sp, filter (fun c => negb (c =? 0)) co).

(** CombiMinMaxScheme.cpp:66-73, getFurthestCorner (std::max_element returns the first maximum). *)
Fixpoint argMax (l : list Z) (i best : nat) (m : Z) : nat :=
  match l with [] => best | x :: r => if m <? x then argMax r (S i) i x else argMax r (S i) best m end.
Definition furthestCorner (lmax lmin : list Z) : list Z :=
  match map2 Z.sub lmax lmin with
  | [] => lmin
  | x :: r => let j := argMax r 1 0 x in upd lmin j (nth j lmax 0)
  end.

(** CombiMinMaxScheme.cpp:75-91: the levels handed to the coefficient computation. *)
Definition adaptiveN (lmin lmax : list Z) : Z := levelSum (furthestCorner lmax lmin).
Definition adaptiveLevels (lmin lmax : list Z) : list (list Z) :=
  let n := adaptiveN lmin lmax - levelSum lmin in
  truncatedLevels lmax (map (fun x => x - n) lmax).
Definition adaptiveSpaces (lmin lmax : list Z) : list (list Z) :=
  filter (fun l => vgeb l lmin && (levelSum l <=? adaptiveN lmin lmax)) (adaptiveLevels lmin lmax).

(** CombiMinMaxScheme.cpp:75-97, createAdaptiveCombischeme. *)
Definition adaptiveScheme (lmin lmax : list Z) : Scheme :=
  let (sp, co) := adaptiveCoeffs (adaptiveSpaces lmin lmax) in
  {| sSpaces := sp; sCoeffs := co; sLevels := adaptiveLevels lmin lmax; sLmin := lmin; sN := adaptiveN lmin lmax;
     sEffDim := effDim lmin lmax |}.

(** std::set<LevelVector>: sorted by std::vector's lexicographic operator<, without duplicates. *)
Fixpoint lexltb (a b : list Z) : bool :=
  match a, b with
  | _, [] => false
  | [], _ :: _ => true
  | x :: a', y :: b' => (x <? y) || ((x =? y) && lexltb a' b')
  end.
Fixpoint setInsert (v : list Z) (s : list (list Z)) : list (list Z) :=
  match s with
  | [] => [v]
  | w :: r => if lexltb v w then v :: s else if lexltb w v then w :: setInsert v r else s
  end.

(** CombiMinMaxScheme.hpp:117-128, createDownSet. *)
Definition createDownSet (spaces : list (list Z)) (coeffs : list Z) : list (list Z) :=
  fold_left (fun set p => if snd p =? 1 then fold_left (fun s v => setInsert v s) (getDownSet (fst p)) set else set)
            (combine spaces coeffs) [].
