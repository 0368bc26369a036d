(** Model of src/fullgrid/Tensor.hpp (class TensorIndexer) and of the index conversions of
    src/fullgrid/DistributedFullGrid.hpp that are built on it. Indices are unbounded integers:
    the 32-bit overflow of IndexType is excluded by the assertion in Tensor.hpp:61, which is not modelled. *)
From Verif Require Import Base.

(** Tensor.hpp:20-30, constructor loop filling [localOffsets_] (column-major order);
    [acc] is [nrElements]. *)
Fixpoint offsetsFrom (acc : Z) (extents : list Z) : list Z :=
  match extents with
  | [] => []
  | e :: rest => acc :: offsetsFrom (acc * e) rest
  end.

Definition localOffsets (extents : list Z) : list Z := offsetsFrom 1 extents.

(** Tensor.hpp:55-63, [size]: zero for an empty extents vector, otherwise the product. *)
Definition tensorSize (extents : list Z) : Z :=
  match extents with [] => 0 | _ => fold_left Z.mul extents 1 end.

(** Tensor.hpp:65-68, [std::inner_product] over the length of the first range.
    (Reading past a shorter offsets vector is undefined; here the longer rest contributes nothing, and every
    theorem assumes equal lengths.) *)
Fixpoint innerProduct (a b : list Z) (acc : Z) : Z :=
  match a, b with
  | x :: a', y :: b' => innerProduct a' b' (acc + x * y)
  | _, _ => acc
  end.

Definition sequentialIndex (extents indexVector : list Z) : Z :=
  innerProduct indexVector (localOffsets extents) 0.

(** Tensor.hpp:70-82, [getVectorIndex]: loop from the last to the first dimension, C++ truncating division. *)
Fixpoint getVectorIndexLoop (index : Z) (revOffsets acc : list Z) : list Z :=
  match revOffsets with
  | [] => acc
  | o :: rest => getVectorIndexLoop (Z.rem index o) rest (Z.quot index o :: acc)
  end.

Definition getVectorIndex (extents : list Z) (index : Z) : list Z :=
  getVectorIndexLoop index (rev (localOffsets extents)) [].

(** DistributedFullGrid.hpp:671-685 (getCoordsGlobal) and 710-715 (getGlobalLI): the second way the code
    splits a linear index, by repeated remainder and division from the first dimension on. *)
Fixpoint remDivChain (sizes : list Z) (index : Z) : list Z :=
  match sizes with
  | [] => []
  | s :: rest => Z.rem index s :: remDivChain rest (Z.quot index s)
  end.

(** IndexVector.hpp: componentwise operators + and -. *)
Fixpoint vadd (a b : list Z) : list Z :=
  match a, b with x :: a', y :: b' => (x + y) :: vadd a' b' | _, _ => [] end.
Fixpoint vsub (a b : list Z) : list Z :=
  match a, b with x :: a', y :: b' => (x - y) :: vsub a' b' | _, _ => [] end.

(** IndexVector.hpp:44-86: componentwise comparisons (all components must satisfy the relation). *)
Fixpoint vall (r : Z -> Z -> bool) (a b : list Z) : bool :=
  match a, b with x :: a', y :: b' => r x y && vall r a' b' | _, _ => true end.
Definition vleb := vall Z.leb.
Definition vltb := vall Z.ltb.
Definition vgeb (a b : list Z) := vall Z.leb b a.

(** A process' part of a grid: global sizes and the half-open box it owns
    (DistributedFullGrid.hpp:650-657: globalIndexer_, myPartitionsLowerBounds_, myPartitionsUpperBounds_). *)
Record LocalGrid := mkLocalGrid { lgGlobal : list Z; lgLower : list Z; lgUpper : list Z }.

(** DistributedFullGrid.hpp:656: nrLocalPoints. *)
Definition lgLocalSizes (g : LocalGrid) : list Z := vsub (lgUpper g) (lgLower g).

(** DistributedFullGrid.hpp:652: myPartitionsFirstGlobalIndex_. *)
Definition firstGlobalIndex (g : LocalGrid) : Z := sequentialIndex (lgGlobal g) (lgLower g).

(** DistributedFullGrid.hpp:784-797: local linear index to global linear index. *)
Definition globalOfLocalLinear (g : LocalGrid) (locLin : Z) : Z :=
  firstGlobalIndex g + sequentialIndex (lgGlobal g) (getVectorIndex (lgLocalSizes g) locLin).

(** DistributedFullGrid.hpp:823-826: isGlobalIndexHere. *)
Definition isGlobalIndexHere (g : LocalGrid) (v : list Z) : bool :=
  vgeb v (lgLower g) && vltb v (lgUpper g).

(** DistributedFullGrid.hpp:763-775: global vector index to local vector index. *)
Definition localVectorOfGlobal (g : LocalGrid) (v : list Z) : option (list Z) :=
  if isGlobalIndexHere g v then Some (vsub v (lgLower g)) else None.

(** DistributedFullGrid.hpp:806-820: global linear index to local linear index, exactly as coded (it applies the
    local offsets to the global vector index and subtracts the first global index). *)
Definition localOfGlobalLinear (g : LocalGrid) (globLin : Z) : Z :=
  let v := getVectorIndex (lgGlobal g) globLin in
  if isGlobalIndexHere g v
  then sequentialIndex (lgLocalSizes g) v - firstGlobalIndex g
  else -1.
