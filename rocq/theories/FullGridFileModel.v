(** Model of the serial full grid as an object: constructors, files (save and the constructor that reads one), printing, plot files
    and norms of src/fullgrid/FullGrid.hpp. Archives are token sequences as in ParamsModel; values are real and exact; std::pow with the
    exponent 1/p is taken by its specification. *)
From Verif Require Import Base TensorModel QcTools FullGridModel ParamsModel.
From Coq Require Import String QArith Qcanon List.
Import ListNotations.
Open Scope list_scope.
Open Scope Z_scope.

(** FullGrid.hpp:165-211: the members; [fBasis] is the pointer to the basis function, [None] while it is not initialized. *)
Record fullGrid := FullGridObj {
  fDim : Z; fElements : Z; fCreated : bool; fLevels : list Z; fPoints : list Z; fBoundary : list Z; fOffsets : list Z;
  fData : list Qc; fHierarchized : bool; fBasis : option nat }.

(** FullGrid.hpp:281-311, the constructor with levels and boundary flags; [basis] is given or the newly allocated default one. *)
Definition makeGrid (levels bs : list Z) (basis : nat) : fullGrid :=
  FullGridObj (Z.of_nat (List.length levels)) (fgElements levels bs) false levels (fgSizes levels bs) bs
    (offsetsFrom 1 (fgSizes levels bs)) [] false (Some basis).
(** FullGrid.hpp:675-680, setElementVector. *)
Definition setElements (g : fullGrid) (d : list Qc) : fullGrid :=
  FullGridObj (fDim g) (fElements g) true (fLevels g) (fPoints g) (fBoundary g) (fOffsets g) d (fHierarchized g) (fBasis g).
(** FullGrid.hpp:394-398, createFullGrid: vector::resize keeps the values that are there. *)
Definition createGrid (g : fullGrid) : fullGrid :=
  let n := Z.to_nat (fElements g) in
  setElements g (firstn n (fData g) ++ repeat (Q2Qc 0) (n - List.length (fData g))).

(** FullGrid.hpp:711-717, save, with 811-824, serialize, for writing. *)
Definition saveGrid (g : fullGrid) : list token :=
  saveInt (fDim g) ++ saveInt (fElements g) ++ saveBool (fCreated g) ++ saveVec saveInt (fLevels g) ++ saveVec saveInt (fPoints g)
  ++ saveVec saveInt (fBoundary g) ++ saveVec saveInt (fOffsets g) ++ saveVec (fun q => [TReal q]) (fData g)
  ++ saveBool (fHierarchized g).
(** FullGrid.hpp:313-320, the constructor that reads a file: [basis], its second argument, is not used. *)
Definition readGrid (t : list token) (basis : option nat) : option fullGrid :=
  load dim, t from loadInt t then
  load n, t from loadInt t then
  load created, t from loadBool t then
  load levels, t from loadVec loadInt t then
  load points, t from loadVec loadInt t then
  load bs, t from loadVec loadInt t then
  load offsets, t from loadVec loadInt t then
  load data, t from loadVec loadReal t then
  load hier, rest from loadBool t then
  Some (FullGridObj dim n created levels points bs offsets data hier None).

(** The value at a position of the element vector. *)
Definition fAt (g : fullGrid) (i : Z) : Qc := nth (Z.to_nat i) (fData g) (Q2Qc 0).

(** FullGrid.hpp:887-896, 871-884, 899-917: the lines of print1D, print2D and print3D, each a list of values. *)
Definition print1D (g : fullGrid) : list (list Qc) := [map (fAt g) (zrange 0 (nth 0 (fPoints g) 0))].
Definition print2D (g : fullGrid) : list (list Qc) :=
  map (fun i => let offset := nth 1 (fOffsets g) 0 * i in
                map (fun j => fAt g (offset + j)) (zrange 0 (nth 0 (fPoints g) 0)))
      (zrange 0 (nth 1 (fPoints g) 0)).
Definition print3D (g : fullGrid) : list (list Qc) :=
  flat_map (fun k => let offsetZ := nth 2 (fOffsets g) 0 * k in
     map (fun i => let offset := offsetZ + nth 1 (fOffsets g) 0 * i in
                   map (fun j => fAt g (offset + j)) (zrange 0 (nth 0 (fPoints g) 0)))
         (zrange 0 (nth 1 (fPoints g) 0)))
    (zrange 0 (nth 2 (fPoints g) 0)).
(** FullGrid.hpp:919-929, print; [None] for the failed assertion. *)
Definition printGrid (g : fullGrid) : option (list (list Qc)) :=
  if fDim g =? 1 then Some (print1D g)
  else if fDim g =? 2 then Some (print2D g)
  else if fDim g =? 3 then Some (print3D g)
  else None.

(** FullGrid.hpp:833-840: the loop for the maximum norm. *)
Definition maxNorm (d : list Qc) : Qc := fold_left (fun m x => if qltb m (qabs x) then qabs x else m) d (Q2Qc 0).
(** x^p for natural p. *)
Fixpoint qpow (x : Qc) (p : nat) : Qc := match p with O => Q2Qc 1 | S p' => (x * qpow x p')%Qc end.
(** FullGrid.hpp:846-849: the sum of the powers. *)
Definition powSum (p : nat) (d : list Qc) : Qc := fold_left (fun res x => (res + qpow (qabs x) p)%Qc) d (Q2Qc 0).
(** FullGrid.hpp:826-853, getlpNorm: [r] is a result; pow(res, 1/p) is the number that is not negative with res as its p-th power
    (it need not be rational, then there is no result here). *)
Definition lpNormResult (p : nat) (d : list Qc) (r : Qc) : Prop :=
  match p with O => r = maxNorm d | S _ => (0 <= r)%Qc /\ qpow r p = powSum p d end.
(** FullGrid.hpp:855-862, normalizelp with the result [norm] of getlpNorm: [None] for a division by zero. *)
Definition normalizeBy (norm : Qc) (d : list Qc) : option (list Qc) :=
  match d with
  | [] => Some []
  | _ => if Qc_eq_dec norm (Q2Qc 0) then None else Some (map (fun x => (x / norm)%Qc) d)
  end.
