(** Model of the corner and boundary queries of src/fullgrid/DistributedFullGrid.hpp:1655-1727. *)
From Verif Require Import Base TensorModel PartitionModel Hier1dModel HierMassProofs InterpModel.
From Coq Require Import QArith Qcanon.
Open Scope Z_scope.

(** DistributedFullGrid.hpp:1655-1673, isGlobalLinearIndexOnBoundary, and 1675-1679, isLocalLinearIndexOnBoundary. *)
Fixpoint boundaryFlags (bs sizes v : list Z) : list bool :=
  match bs, sizes, v with
  | b :: bs', n :: sizes', j :: v' => (if b =? 2 then (j =? 0) || (j =? n - 1) else false) :: boundaryFlags bs' sizes' v'
  | _, _, _ => []
  end.
Definition globalLinearOnBoundary (bs sizes : list Z) (i : Z) : list bool := boundaryFlags bs sizes (getVectorIndex sizes i).
Definition localLinearOnBoundary (bs : list Z) (g : LocalGrid) (i : Z) : list bool :=
  globalLinearOnBoundary bs (lgGlobal g) (globalOfLocalLinear g i).

(** DistributedFullGrid.hpp:1680-1696, getCornersGlobalVectorIndicesRecursive; [sizes] are those of the remaining dimensions. *)
Fixpoint cornersRecursive (soFar : list (list Z)) (sizes : list Z) : list (list Z) :=
  match sizes with
  | [] => soFar
  | n :: rest => cornersRecursive (flat_map (fun v => [v ++ [0]; v ++ [n - 1]]) soFar) rest
  end.
(** DistributedFullGrid.hpp:1698-1707, getCornersGlobalVectorIndices. *)
Definition cornerIndices (sizes : list Z) : list (list Z) := cornersRecursive [[]] sizes.

(** DistributedFullGrid.hpp:1712-1722: what process [g] puts in for one corner. *)
Definition cornerContribution (g : LocalGrid) (data : arr) (corner : list Z) : Qc :=
  match localVectorOfGlobal g corner with
  | Some v => data (sequentialIndex (lgLocalSizes g) v)
  | None => 0%Qc
  end.
(** DistributedFullGrid.hpp:1709-1727, getCornersValues: the sum over the processes. *)
Definition cornersValues (procs sizes : list Z) (decs : list (list Z)) (data : Z -> arr) : list Qc :=
  map (fun c => qsum (map (fun r => cornerContribution (localPart procs sizes decs r) (data r) c) (zrange 0 (zprod procs)))) (cornerIndices sizes).
