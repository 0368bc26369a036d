(** Model of hierarchization of a distributed full grid in several dimensions,
    src/hierarchization/DistributedHierarchization.hpp: hierarchize, dehierarchize and the traversal of the poles. *)
From Verif Require Import Base TensorModel PartitionModel DecompModel SubspaceModel Hier1dModel DistHierModel.
From Coq Require Import QArith Qcanon.
Open Scope Z_scope.

(** What a call sees: the grid (process grid, levels, boundary types, decomposition; DistributedFullGrid.hpp:615-658) and the
    arguments of hierarchize / dehierarchize (DistributedHierarchization.hpp:1129-1132): which dimensions, basis and minimum
    level per dimension. *)
Record HCfg := { hProcs : list Z; hLevels : list Z; hBnds : list Z; hDecs : list (list Z);
                 hDims : list bool; hBases : list basis; hLmin : list Z }.

(** Bounds and sizes of the part of rank [r] (DistributedFullGrid.hpp:650-657). *)
Definition hSizes (c : HCfg) : list Z := globalSizes (hLevels c) (hBnds c).
Definition hLower (c : HCfg) (r : Z) : list Z := lowerBounds (hProcs c) (hDecs c) r.
Definition hUpper (c : HCfg) (r : Z) : list Z := upperBounds (hProcs c) (hSizes c) (hDecs c) r.
Definition hLocalSizes (c : HCfg) (r : Z) : list Z := vsub (hUpper c r) (hLower c r).

(** The poles of a local grid in dimension [k], as (number used for the received slices, local linear index of the first
    point). With boundary: two nested loops, DistributedHierarchization.hpp:900-926. *)
Definition polesWithBoundary (ls : list Z) (k : nat) : list (Z * Z) :=
  let offset := nth k (localOffsets ls) 0 in
  let jump := offset * nth k ls 0 in
  let higher := tensorSize ls / jump in
  flat_map (fun nHigher => map (fun nLower => (nLower + nHigher * offset, nHigher * jump + nLower)) (zrange 0 offset))
           (zrange 0 higher).

(** Without boundary: one loop with a division, DistributedHierarchization.hpp:974-991 (1056-1073). *)
Definition polesNoBoundary (ls : list Z) (k : nat) : list (Z * Z) :=
  let stride := nth k (localOffsets ls) 0 in
  let ndim := nth k ls 0 in
  let jump := stride * ndim in
  map (fun nn => (nn, Z.quot nn stride * jump + Z.rem nn stride)) (zrange 0 (tensorSize ls / ndim)).

(** Element [m] of the slice of the local grid at 1d local index [i] in dimension [k]: MPI_Type_create_subarray with the full
    local sizes except 1 in dimension [k], Fortran order (DistributedHierarchization.hpp:106-120), displaced by
    [i * localOffsets[k]] (146-164). That a subarray type enumerates the sub-box in Fortran order is the MPI standard. *)
Definition sliceElement (ls : list Z) (k : nat) (m i : Z) : Z :=
  sequentialIndex ls (getVectorIndex (upd ls k 1) m) + i * nth k (localOffsets ls) 0.

(** The rank with partition index [c] on the same pole in dimension [k] (getNeighbor1dFromPartitionIndex,
    MPICartesianUtils.hpp:110-119). *)
Definition poleRank (c : HCfg) (k : nat) (r p : Z) : Z :=
  rankOfCoords (hProcs c) (upd (coordsOfRank (hProcs c) r) k p).

(** The values of one pole as partition [p] contributes them to rank [r]: its own ones are read through the pole
    (DistributedHierarchization.hpp:933-938, 1001, 1084), the others arrive as slices and are read by pole number (930,
    996, 1079). [i] is the global 1d index. *)
Definition poleValues (c : HCfg) (k : nat) (data : Z -> arr) (own : arr) (r : Z) (pole : Z * Z) (p : Z) : arr := fun i =>
  if p =? nth k (coordsOfRank (hProcs c) r) 0
  then own (snd pole + nth k (localOffsets (hLocalSizes c r)) 0 * (i - nth k (hLower c r) 0))
  else let s := poleRank c k r p in
       data s (sliceElement (hLocalSizes c s) k (fst pole) (i - nth k (hLower c s) 0)).

(** Copying the pole back (DistributedHierarchization.hpp:955-960, 1037, 1117). *)
Definition writePole (c : HCfg) (k : nat) (r start : Z) (res ld : arr) : arr :=
  fold_left (fun ld i => setA ld (start + nth k (localOffsets (hLocalSizes c r)) 0 * i) (res (nth k (hLower c r) 0 + i)))
            (zrange 0 (nth k (hLocalSizes c r) 0)) ld.

(** One dimension on rank [r]. [data] are the values of all ranks when the slices were exchanged, [stale] the contents of
    the work buffer before each pole. *)
Definition sweepRank (c : HCfg) (dehier : bool) (k : nat) (stale : Z -> Z -> arr) (data : Z -> arr) (r : Z) : arr :=
  let f := nth k (hBases c) Hat in let b := nth k (hBnds c) 0 in
  let poles := (if b >? 0 then polesWithBoundary else polesNoBoundary) (hLocalSizes c r) k in
  fold_left (fun ld pole =>
      match distPole f dehier b (nth k (hLevels c) 0) (nth k (hLmin c) 0) (nth k (hDecs c) []) (nth k (hSizes c) 0)
                     (nth k (coordsOfRank (hProcs c) r) 0) (stale r (fst pole)) (poleValues c k data ld r pole) with
      | Some res => writePole c k r (snd pole) res ld
      | None => ld
      end) poles (data r).

(** DistributedHierarchization.hpp:1177-1180 (1258-1261): only the hat basis is supported without boundary. *)
Definition isHat (f : basis) : bool := match f with Hat => true | _ => false end.

(** DistributedHierarchization.hpp:1137-1186 (1218-1268): the loop over the dimensions on all ranks. [None]: the exception
    was thrown. *)
Definition sweepDim (c : HCfg) (dehier : bool) (k : nat) (stale : Z -> Z -> arr) (data : Z -> arr) : option (Z -> arr) :=
  if negb (nth k (hDims c) false) then Some data
  else if nth k (hLmin c) 0 >=? nth k (hLevels c) 0 then Some data
  else if (nth k (hBnds c) 0 >? 0) || isHat (nth k (hBases c) Hat)
  then Some (fun r => sweepRank c dehier k stale data r)
  else None.

Fixpoint sweepDims (c : HCfg) (dehier : bool) (ks : list nat) (stale : nat -> Z -> Z -> arr) (data : Z -> arr)
  : option (Z -> arr) :=
  match ks with
  | [] => Some data
  | k :: ks' => match sweepDim c dehier k (stale k) data with
                | Some data' => sweepDims c dehier ks' stale data'
                | None => None
                end
  end.

Definition hierarchizeAll (c : HCfg) (stale : nat -> Z -> Z -> arr) (data : Z -> arr) : option (Z -> arr) :=
  sweepDims c false (seq 0 (length (hLevels c))) stale data.
Definition dehierarchizeAll (c : HCfg) (stale : nat -> Z -> Z -> arr) (data : Z -> arr) : option (Z -> arr) :=
  sweepDims c true (seq 0 (length (hLevels c))) stale data.
