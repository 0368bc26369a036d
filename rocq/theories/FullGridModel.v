(** Model of the serial full grid, src/fullgrid/FullGrid.hpp, and of its hierarchization,
    src/hierarchization/Hierarchization.hpp. Values and coordinates are exact. The pragma-omp loops over the poles are run in
    order (the poles are disjoint). *)
From Verif Require Import Base TensorModel Hier1dModel DofModel QcTools.
From Coq Require Import QArith Qcanon.
Open Scope Z_scope.

(** FullGrid.hpp:243-247 (271-275, 303-307): points per dimension. *)
Definition fgPoints (L b : Z) : Z := powerOfTwo L + b - 1.
Definition fgSizes (levels bs : list Z) : list Z := map2 fgPoints levels bs.
(** [nrElements_] after the same loop. *)
Definition fgElements (levels bs : list Z) : Z := fold_left (fun acc n => acc * n) (fgSizes levels bs) 1.

(** FullGrid.hpp:571-580, getVectorIndex: from the last dimension to the first, quotient and remainder by the offset. *)
Definition fgVectorIndex (sizes : list Z) (i : Z) : list Z :=
  snd (fold_left (fun st o => (Z.rem (fst st) o, Z.quot (fst st) o :: snd st)) (rev (offsetsFrom 1 sizes)) (i, [])).

(** FullGrid.hpp:584-593, getLinearIndex: from the last dimension to the first. *)
Definition fgLinearIndex (sizes v : list Z) : Z :=
  fold_left (fun tmp ov => tmp + fst ov * snd ov) (rev (combine (offsetsFrom 1 sizes) v)) 0.

(** FullGrid.hpp:517-530, getCoords. *)
Fixpoint fgCoords (levels bs : list Z) (i : Z) : list Qc :=
  match levels, bs with
  | L :: levels', b :: bs' =>
      let n := fgPoints L b in
      (zq (Z.rem i n + (if b >? 0 then 0 else 1)) * Q2Qc (nth (Z.to_nat L) oneOverPowOfTwoTable 0%Q))%Qc :: fgCoords levels' bs' (Z.quot i n)
  | _, _ => []
  end.

(** FullGrid.hpp:555-559: halve an index until it is odd, lowering the level; [fuel] bounds the loop (it ends before for every
    positive index, see FullGridProofs.v). *)
Fixpoint halve (fuel : nat) (i l : Z) : Z * Z :=
  match fuel with
  | O => (i, l)
  | S fuel' => if Z.rem i 2 =? 0 then halve fuel' (Z.quot i 2) (l - 1) else (i, l)
  end.
(** FullGrid.hpp:550-564: level and index in one dimension. *)
Definition fgLI1 (L i : Z) : Z * Z :=
  if negb (i =? 0) then let (i', l) := halve (Z.to_nat i) i L in (l, i') else (0, i).
(** FullGrid.hpp:532-566, getLI, as a list of (level, index). *)
Fixpoint fgLI (levels bs : list Z) (i : Z) : list (Z * Z) :=
  match levels, bs with
  | L :: levels', b :: bs' =>
      let n := fgPoints L b in
      fgLI1 L (Z.rem i n + (if negb (b =? 0) then 0 else 1)) :: fgLI levels' bs' (Z.quot i n)
  | _, _ => []
  end.

(** FullGrid.hpp:431-464: cell index and normalised coordinate in one dimension. *)
Definition fgCell (L b : Z) (x : Qc) : Z * Qc :=
  let n := fgPoints L b in
  let X := (x * zq (powerOfTwo L))%Qc in
  let a := qfloor X in
  if b >? 0 then
    let a := if a <? 0 then 0 else a in
    let a := if a >=? n - 1 then n - 2 else a in
    (a, (X - zq a)%Qc)
  else
    let a := if a <? 0 then 0 else a in
    let a := if a >=? n then n else a in
    let st := if a <=? 0 then (1, (X - 1)%Qc)
              else if a >=? n - 1 then (n - 1, (X - zq (n - 1))%Qc)
              else (a, (X - zq a)%Qc) in
    let a := fst st - 1 in
    (if a <? 0 then 0 else a, snd st).

(** FullGrid.hpp:473-503: the basis function value and linear index of corner [bits]; the axes (level, boundary type, coordinate)
    come in the order of the loop, the last dimension first. The expression [baseVal * 1.0 - coords] (line 494) is the product
    minus the coordinate. *)
Fixpoint fgCorner (axes : list (Z * Z * Qc)) (bits : Z) (base : Qc) (i : Z) : Qc * Z :=
  match axes with
  | [] => (base, i)
  | (L, b, x) :: axes' =>
      let n := fgPoints L b in
      let (a, t) := fgCell L b x in
      let vv := if n >? 1 then Z.land bits 1 else 0 in
      let base := if n =? 1 then (if qltb qhalf x then base * 1 - x else base * x)%Qc
                  else (base * (if vv =? 0 then 1 - t else t))%Qc in
      fgCorner axes' (Z.shiftr bits 1) base (i * n + a + vv)
  end.

(** FullGrid.hpp:410-515, eval. *)
Definition fgEval (levels bs : list Z) (xs : list Qc) (data : arr) : Qc :=
  if existsb (fun x => qltb x 0 || qltb 1 x) xs then 0%Qc
  else fold_left (fun ret ii => let (w, i) := fgCorner (rev (combine (combine levels bs) xs)) ii 1 0 in
                                if ii =? 0 then (w * data i)%Qc else (ret + w * data i)%Qc)
                 (zrange 0 (powerOfTwo (Z.of_nat (length levels)))) (data 0).

(** FullGrid.hpp:724-756, add: the element vector of a grid (levels, boundary types) after adding [coeff] times another one. *)
Definition fgAdd (levels bs : list Z) (dst : arr) (levels' bs' : list Z) (src : arr) (coeff : Qc) : arr :=
  if (if list_eq_dec Z.eq_dec levels levels' then true else false) && (if list_eq_dec Z.eq_dec bs bs' then true else false)
  then fold_left (fun d i => setA d i (d i + coeff * src i)%Qc) (zrange 0 (fgElements levels bs)) dst
  else fold_left (fun d i => setA d i (d i + coeff * fgEval levels' bs' (fgCoords levels bs i) src)%Qc) (zrange 0 (fgElements levels bs)) dst.

(** FullGrid.hpp:692-709, gridEval into a grid with the same boundary types. *)
Definition fgGridEval (levels bs : list Z) (src : arr) (levels' : list Z) (dst : arr) : arr :=
  fold_left (fun d i => setA d i (fgEval levels bs (fgCoords levels' bs i) src)) (zrange 0 (fgElements levels' bs)) dst.

(** ** Hierarchization.hpp *)

(** The inner loop of all four kernels (Hierarchization.hpp:257-265, 302-310, 358-366, 410-418): [op] is the subtraction of
    hierarchization or the addition of dehierarchization. State: values, parL, offset. *)
Definition serialStep (op : Qc -> Qc -> Qc) (start stride parOffsetStrided stepsize : Z) (st : arr * Qc * Z) : arr * Qc * Z :=
  let '(val, parL, offset) := st in
  let k := start + offset * stride in
  let parR := (qhalf * val (k + parOffsetStrided)%Z)%Qc in
  (setA val k (op (op (val k) parL) parR), parR, offset + stepsize).
Definition serialSpan (op : Qc -> Qc -> Qc) (start stride parOffsetStrided stepsize : Z) (n : nat) (st : arr * Qc * Z) : arr * Qc * Z :=
  Nat.iter n (serialStep op start stride parOffsetStrided stepsize) st.

(** One level with boundary points (Hierarchization.hpp:299-310, 406-418). *)
Definition serialLevelB (op : Qc -> Qc -> Qc) (start stride steps offset stepsize parentOffset : Z) (val : arr) : arr :=
  let ps := parentOffset * stride in
  fst (fst (serialSpan op start stride ps stepsize (Z.to_nat steps) (val, (qhalf * val (start + offset * stride - ps)%Z)%Qc, offset))).

(** One level without boundary points, hierarchization (Hierarchization.hpp:252-267). *)
Definition serialLevelN (start stride steps offset stepsize parentOffset : Z) (val : arr) : arr :=
  let ps := parentOffset * stride in
  let k := start + offset * stride in
  let val1 := setA val k (val k - qhalf * val (k + ps)%Z)%Qc in
  let offset1 := offset + stepsize in
  let '(val2, parL, offset2) := serialSpan Qcminus start stride ps stepsize (Z.to_nat (steps - 2))
                                           (val1, (qhalf * val1 (start + offset1 * stride - ps)%Z)%Qc, offset1) in
  let k2 := start + offset2 * stride in
  setA val2 k2 (val2 k2 - parL)%Qc.
(** One level without boundary points, dehierarchization (Hierarchization.hpp:351-368). *)
Definition serialLevelND (start stride steps offset stepsize parentOffset : Z) (val : arr) : arr :=
  let ps := parentOffset * stride in
  let k := start + offset * stride in
  let parL := (qhalf * val (k + ps)%Z)%Qc in
  let val1 := setA val k (val k + parL)%Qc in
  let '(val2, parL2, offset2) := serialSpan Qcplus start stride ps stepsize (Z.to_nat (steps - 2)) (val1, parL, offset + stepsize) in
  let k2 := start + offset2 * stride in
  setA val2 k2 (val2 k2 + parL2)%Qc.

(** Hierarchization.hpp:231-275, hierarchize1DUnoptimizedNoBoundary; [n] iterations remain, [ll] is the loop variable. *)
Fixpoint serialHierNLoop (n : nat) (start stride L ll steps offset stepsize parentOffset : Z) (val : arr) : arr :=
  match n with
  | O => val
  | S n' => serialHierNLoop n' start stride L (ll - 1) (Z.shiftr steps 1) (Z.shiftl 1 (L - ll) - 1) (Z.shiftl stepsize 1) stepsize
                            (serialLevelN start stride steps offset stepsize parentOffset val)
  end.
Definition serialHierN (start stride L : Z) (val : arr) : arr :=
  serialHierNLoop (Z.to_nat (L - 1)) start stride L (L - 1) (Z.shiftl 1 (L - 1)) 0 2 1 val.

(** Hierarchization.hpp:277-319, hierarchize1DUnoptimizedBoundary. *)
Fixpoint serialHierBLoop (n : nat) (start stride L ll steps offset stepsize parentOffset : Z) (val : arr) : arr :=
  match n with
  | O => val
  | S n' => serialHierBLoop n' start stride L (ll - 1) (Z.shiftr steps 1) (Z.shiftl 1 (L - ll)) (Z.shiftl stepsize 1) stepsize
                            (serialLevelB Qcminus start stride steps offset stepsize parentOffset val)
  end.
Definition serialHierB (start stride L : Z) (val : arr) : arr :=
  serialHierBLoop (Z.to_nat L) start stride L (L - 1) (Z.shiftl 1 (L - 1)) 1 2 1 val.

(** Hierarchization.hpp:321-378, dehierarchize1DUnoptimizedNoBoundary. *)
Fixpoint serialDehierNLoop (n : nat) (start stride L ll steps offset stepsize parentOffset : Z) (val : arr) : arr :=
  match n with
  | O => val
  | S n' => serialDehierNLoop n' start stride L (ll + 1) (Z.shiftl steps 1) (Z.shiftl 1 (L - (ll + 1)) - 1) (Z.shiftr stepsize 1)
                              (Z.shiftr parentOffset 1) (serialLevelND start stride steps offset stepsize parentOffset val)
  end.
Definition serialDehierN (start stride L : Z) (val : arr) : arr :=
  serialDehierNLoop (Z.to_nat (L - 1)) start stride L 2 2 (Z.shiftl 1 (L - 2) - 1) (Z.shiftl 1 (L - 1)) (Z.shiftl 1 (L - 2)) val.

(** Hierarchization.hpp:380-428, dehierarchize1DUnoptimizedBoundary. *)
Fixpoint serialDehierBLoop (n : nat) (start stride L ll steps offset stepsize parentOffset : Z) (val : arr) : arr :=
  match n with
  | O => val
  | S n' => serialDehierBLoop n' start stride L (ll + 1) (Z.shiftl steps 1) (Z.shiftl 1 (L - (ll + 1))) (Z.shiftr stepsize 1)
                              (Z.shiftr parentOffset 1) (serialLevelB Qcplus start stride steps offset stepsize parentOffset val)
  end.
Definition serialDehierB (start stride L : Z) (val : arr) : arr :=
  serialDehierBLoop (Z.to_nat L) start stride L 1 1 (Z.shiftl 1 (L - 1)) (Z.shiftl 1 L) (Z.shiftl 1 (L - 1)) val.

(** Hierarchization.hpp:79-94, 106-125 (164-179, 191-210): which kernel runs on a pole. *)
Definition serialPole (dehier : bool) (b L start stride : Z) (val : arr) : arr :=
  if b =? 0 then (if dehier then serialDehierN else serialHierN) start stride L val
  else (if dehier then serialDehierB else serialHierB) start stride L val.

(** Hierarchization.hpp:61-67 (146-152): the number of points the sweep assumes in a dimension. *)
Definition serialPoints (L b : Z) : Z := if b =? 0 then 2 ^ L - 1 else 2 ^ L + 1.

(** Hierarchization.hpp:97-127 (184-214): the second and further dimensions. *)
Fixpoint serialRest (dehier : bool) (levels bs : list Z) (size stride : Z) (val : arr) : arr :=
  match levels, bs with
  | L :: levels', b :: bs' =>
      let ndim := serialPoints L b in
      let jump := stride * ndim in
      let val' := fold_left (fun v nn => serialPole dehier b L (Z.quot nn stride * jump + Z.rem nn stride) stride v)
                            (zrange 0 (size / ndim)) val in
      serialRest dehier levels' bs' size (stride * ndim) val'
  | _, _ => val
  end.
(** Hierarchization.hpp:53-135 (138-221), hierarchize and dehierarchize. *)
Definition serialAll (dehier : bool) (levels bs : list Z) (val : arr) : arr :=
  let size := fgElements levels bs in
  match levels, bs with
  | L :: levels', b :: bs' =>
      let ndim := serialPoints L b in
      let val' := fold_left (fun v kk => serialPole dehier b L (kk * ndim) 1 v) (zrange 0 (size / ndim)) val in
      serialRest dehier levels' bs' size ndim val'
  | _, _ => val
  end.
