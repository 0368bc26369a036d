(** Model of the enumeration of the points of a hierarchical subspace on one process,
    src/fullgrid/DistributedFullGrid.hpp. *)
From Verif Require Import Base TensorModel PartitionModel DecompModel Level1dModel.

(** The part of a distributed full grid one process sees: level and boundary type per dimension
    and the bounds of its partition (DistributedFullGrid.hpp:615-658). *)
Record Grid := { gLevel : list Z; gBnd : list Z; gLower : list Z; gUpper : list Z }.

Definition gSizes (g : Grid) : list Z := vsub (gUpper g) (gLower g).

(** The 1d indices per dimension (DistributedFullGrid.hpp:1288-1294). *)
Fixpoint oneDIndices (levels bs lo up l : list Z) : list (list Z) :=
  match levels, bs, lo, up, l with
  | L :: levels', b :: bs', lw :: lo', u :: up', k :: l' =>
      indices1dLocal b L lw u k :: oneDIndices levels' bs' lo' up' l'
  | _, _, _, _, _ => []
  end.

(** DistributedFullGrid.hpp:1791-1808, getFGPointsOfSubspaceRecursive: recursion from the last dimension to the first;
    the argument lists (offset, 1d indices) from the last dimension on. *)
Fixpoint fgPointsRec (dimsRev : list (Z * list Z)) (sum : Z) : list Z :=
  match dimsRev with
  | [] => [sum]
  | (off, idxs) :: rest => flat_map (fun i => fgPointsRec rest (sum + off * i)) idxs
  end.

(** DistributedFullGrid.hpp:1282-1304, getFGPointsOfSubspace. *)
Definition anyGreater (l levels : list Z) : bool := existsb (fun b => b) (map2 (fun x y => x >? y) l levels).

Definition fgPointsOfSubspace (g : Grid) (l : list Z) : list Z :=
  if anyGreater l (gLevel g) then []
  else
    let idxs := oneDIndices (gLevel g) (gBnd g) (gLower g) (gUpper g) l in
    let num := fold_left (fun acc i => acc * Z.of_nat (length i)) idxs 1 in
    if num >? 0 then fgPointsRec (rev (combine (localOffsets (gSizes g)) idxs)) 0 else [].

(** DistributedFullGrid.hpp:632-642: global number of points per dimension. *)
Definition globalSizes (levels bs : list Z) : list Z :=
  map2 (fun l b => match numDofNodal1 l b with Some n => n | None => 0 end) levels bs.

(** DistributedFullGrid.hpp:615-658: the part of rank [r] for a given process grid and decomposition. *)
Definition gridOfRank (procs levels bs : list Z) (decs : list (list Z)) (r : Z) : Grid :=
  {| gLevel := levels; gBnd := bs; gLower := lowerBounds procs decs r;
     gUpper := upperBounds procs (globalSizes levels bs) decs r |}.
