(** Model of interpolation at a coordinate and of the norms of a distributed full grid,
    src/fullgrid/DistributedFullGrid.hpp, and of the interpolation of the combined solution,
    src/manager/InterpolationWorker.hpp. Coordinates and values are exact. *)
From Verif Require Import Base TensorModel PartitionModel DecompModel SubspaceModel Hier1dModel HierMassProofs DofModel KahanModel SparseGridModel QcTools.
From Coq Require Import QArith Qcanon.
Open Scope Z_scope.

(** What a process knows of one dimension: level, boundary type, bounds of its part, its offset, and whether it is the first
    process in this dimension (MPICartesianUtils.hpp:94). *)
Record Axis := { aLevel : Z; aBnd : Z; aLower : Z; aUpper : Z; aOffset : Z; aFirst : bool }.

(** DistributedFullGrid.hpp:615-658: the axes of rank [r]. *)
Fixpoint axesFrom (levels bs lo up offs coords : list Z) : list Axis :=
  match levels, bs, lo, up, offs, coords with
  | L :: levels', b :: bs', l :: lo', u :: up', o :: offs', c :: coords' =>
      {| aLevel := L; aBnd := b; aLower := l; aUpper := u; aOffset := o; aFirst := (c =? 0) |} :: axesFrom levels' bs' lo' up' offs' coords'
  | _, _, _, _, _, _ => []
  end.
Definition axesOfRank (procs levels bs : list Z) (decs : list (list Z)) (r : Z) : list Axis :=
  let g := gridOfRank procs levels bs decs r in
  axesFrom levels bs (gLower g) (gUpper g) (localOffsets (gSizes g)) (coordsOfRank procs r).

(** DistributedFullGrid.hpp:641 and 845: grid spacing and its inverse, from the tables (PowerOfTwo.hpp:18-30). *)
Definition gridSpacing (a : Axis) : Qc := Q2Qc (nth (Z.to_nat (aLevel a)) oneOverPowOfTwoTable 0%Q).
Definition inverseSpacing (a : Axis) : Qc := zq (powerOfTwo (aLevel a)).
Definition localSize (a : Axis) : Z := aUpper a - aLower a.
(** DistributedFullGrid.hpp:632-642. *)
Definition globalSize (a : Axis) : Z := match numDofNodal1 (aLevel a) (aBnd a) with Some n => n | None => 0 end.
Definition noLower (a : Axis) : Z := if aBnd a >? 0 then 0 else 1.

(** DistributedFullGrid.hpp:900-904, getLowerBoundsCoord. *)
Definition lowerCoord (a : Axis) : Qc := (zq (aLower a + noLower a) * gridSpacing a)%Qc.

(** DistributedFullGrid.hpp:1081-1099, getPointDistanceToCoordinate. *)
Definition pointDistance (a : Axis) (i : Z) (x : Qc) : Qc := qabs (zq (aLower a + noLower a + i) * gridSpacing a - x)%Qc.

(** DistributedFullGrid.hpp:1190-1208: the local index of the point below the coordinate; [None] if the process has nothing
    to contribute. *)
Definition lowIndex (a : Axis) (x : Qc) : option Z :=
  let i := qfloor ((x - lowerCoord a) * inverseSpacing a)%Qc in
  if i <? -1 then None
  else if negb (qltb x (1 - gridSpacing a)%Qc) && (aBnd a =? 1) && aFirst a then Some i
  else if i >? localSize a - 1 then None
  else Some i.
Fixpoint lowIndices (axes : list Axis) (xs : list Qc) : option (list Z) :=
  match axes, xs with
  | a :: axes', x :: xs' => match lowIndex a x with
                            | None => None
                            | Some i => match lowIndices axes' xs' with Some is => Some (i :: is) | None => None end
                            end
  | _, _ => Some []
  end.

(** DistributedFullGrid.hpp:1109-1143: one iterate of the loop over the 2^dim points; bit d of [it] tells whether the upper
    neighbour in dimension d is taken. Gives the value of the basis function and the local linear index. *)
Fixpoint neighbor (axes : list Axis) (xs : list Qc) (li : list Z) (it : Z) (phi : Qc) (idx : Z) : Qc * Z :=
  match axes, xs, li with
  | a :: axes', x :: xs', i :: li' =>
      let up := Z.odd it in
      let k := i + Z.b2z up in
      if k <? 0 then (0%Qc, idx)
      else if up && (aBnd a =? 1) && (k =? globalSize a)
           then neighbor axes' xs' li' (Z.div2 it) (phi * (1 - pointDistance a 0 (x - 1) * inverseSpacing a))%Qc (idx - i * aOffset a)
      else if k >? localSize a - 1 then (0%Qc, idx)
      else neighbor axes' xs' li' (Z.div2 it) (phi * (1 - pointDistance a k x * inverseSpacing a))%Qc (idx + Z.b2z up * aOffset a)
  | _, _, _ => (phi, idx)
  end.

(** DistributedFullGrid.hpp:1102-1165, evalIndexAndAllUpperNeighbors. *)
Definition evalNeighbors (axes : list Axis) (xs : list Qc) (li : list Z) (data : arr) : Qc :=
  let idx := innerProduct li (map aOffset axes) 0 in
  fold_left (fun res it => let (phi, k) := neighbor axes xs li it 1 idx in if qltb 0 phi then res + phi * data k else res)%Qc
            (zrange 0 (powerOfTwoByBitshift (Z.of_nat (length axes)))) 0%Qc.

(** DistributedFullGrid.hpp:1174-1212, evalLocal. *)
Definition evalLocal (axes : list Axis) (xs : list Qc) (data : arr) : Qc :=
  match lowIndices axes xs with None => 0%Qc | Some li => evalNeighbors axes xs li data end.

(** DistributedFullGrid.hpp:1215-1229, getInterpolatedValues at one coordinate: the sum over the processes. *)
Definition interpolatedValue (procs levels bs : list Z) (decs : list (list Z)) (xs : list Qc) (data : Z -> arr) : Qc :=
  qsum (map (fun r => evalLocal (axesOfRank procs levels bs decs r) xs (data r)) (zrange 0 (zprod procs))).

(** The part of rank [r] with its index conversions (DistributedFullGrid.hpp:650-657). *)
Definition localPart (procs sizes : list Z) (decs : list (list Z)) (r : Z) : LocalGrid :=
  mkLocalGrid sizes (lowerBounds procs decs r) (upperBounds procs sizes decs r).
Definition numLocal (g : LocalGrid) : Z := tensorSize (lgLocalSizes g).

(** DistributedFullGrid.hpp:1655-1679, isLocalLinearIndexOnBoundary and the count of line 1389. *)
Fixpoint countBoundary (bs sizes v : list Z) : Z :=
  match bs, sizes, v with
  | b :: bs', n :: sizes', j :: v' =>
      (if (b =? 2) && ((j =? 0) || (j =? n - 1)) then 1 else 0) + countBoundary bs' sizes' v'
  | _, _, _ => 0
  end.
Definition boundaryCountOf (bs : list Z) (g : LocalGrid) (i : Z) : Z :=
  countBoundary bs (lgGlobal g) (getVectorIndex (lgGlobal g) (globalOfLocalLinear g i)).

(** DistributedFullGrid.hpp:1366-1404, getLpNorm. For [p] = 0: the maximum. *)
Definition maxNorm (procs sizes : list Z) (decs : list (list Z)) (data : Z -> arr) : Qc :=
  let local r := fold_left (fun m i => qmax m (qabs (data r i))) (zrange 0 (numLocal (localPart procs sizes decs r))) 0%Qc in
  fold_left (fun m r => qmax m (local r)) (zrange 1 (zprod procs)) (local 0).

(** For [p] > 0: the sum over the processes, and what is under the final p-th root (line 1401; the root itself is not modelled). *)
Definition lpSum (p : nat) (procs sizes bs : list Z) (decs : list (list Z)) (data : Z -> arr) : Qc :=
  qsum (map (fun r => let g := localPart procs sizes decs r in
     fold_left (fun res i => res + Qcpower (qabs (data r i)) p * Q2Qc (nth (Z.to_nat (boundaryCountOf bs g i)) oneOverPowOfTwoTable 0%Q))%Qc
               (zrange 0 (numLocal g)) 0%Qc) (zrange 0 (zprod procs))).
(** DistributedFullGrid.hpp:870-873, getInnerNodalBasisFunctionIntegral. *)
Definition innerIntegral (levels : list Z) : Qc :=
  fold_left (fun s l => s * Q2Qc (nth (Z.to_nat l) oneOverPowOfTwoTable 0%Q))%Qc levels 1%Qc.
Definition lpRadicand (p : nat) (procs levels bs : list Z) (decs : list (list Z)) (data : Z -> arr) : Qc :=
  (lpSum p procs (globalSizes levels bs) bs decs data * Qcpower (innerIntegral levels) p)%Qc.

(** A task of a group: levels, decomposition, coefficient and the data of all processes of the group. *)
Record ITask := { iLevels : list Z; iDecs : list (list Z); iCoeff : Qc; iData : Z -> arr }.
(** InterpolationWorker.hpp:16-47, interpolateValues at one coordinate: compensated summation over the tasks of a process, sum over
    the processes of each group (local communicator), then over the groups (global reduce communicator: the processes with
    the same rank in each group). *)
Definition kahanAdd (st : Qc * Qc) (summand : Qc) : Qc * Qc :=
  kahanStep (fun x => x) st summand.
Definition processValue (procs bs : list Z) (xs : list Qc) (tasks : list ITask) (r : Z) : Qc :=
  fst (fold_left (fun st k => kahanAdd st (evalLocal (axesOfRank procs (iLevels k) bs (iDecs k) r) xs (iData k r) * iCoeff k)%Qc) tasks (0%Qc, 0%Qc)).
Definition groupValue (procs bs : list Z) (xs : list Qc) (tasks : list ITask) : Qc :=
  qsum (map (processValue procs bs xs tasks) (zrange 0 (zprod procs))).
Definition interpolateValues (procs bs : list Z) (xs : list Qc) (groups : list (list ITask)) : Qc :=
  qsum (map (groupValue procs bs xs) groups).

(** ProcessManager.cpp:434-448, getLpNorm of the combined solution: compensated sum of coefficient times norm over the tasks. *)
Definition combinedNorm (norms : list (Qc * Qc)) : Qc :=
  fst (fold_left (fun st n => kahanAdd st (fst n * snd n)%Qc) norms (0%Qc, 0%Qc)).
