(** Model of the process grid (src/mpi/MPICartesianUtils.hpp) and of the ownership of grid points
    (src/fullgrid/DistributedFullGrid.hpp). *)
From Verif Require Import Base TensorModel.

(** MPI_Cart_coords for a communicator created without reordering: row-major numbering
    (MPI standard; last dimension varies fastest). This is the specification of MPI, not project code. *)
Definition mpiCartCoords (dims : list Z) (r : Z) : list Z := rev (remDivChain (rev dims) r).

(** MPICartesianUtils.hpp:34-46, constructor: partitionCoords_ is filled so that entry
    [sequentialIndex(coords of rank i)] holds [i]. *)
Definition commSize (dims : list Z) : Z := fold_left Z.mul dims 1.

Definition fillPartitionCoords (dims : list Z) : list Z :=
  fold_left (fun pc i => upd pc (Z.to_nat (sequentialIndex dims (mpiCartCoords dims i))) i)
            (zrange 0 (commSize dims)) (repeat 0 (Z.to_nat (commSize dims))).

(** MPICartesianUtils.hpp:80-87, getPartitionCoordsOfRank: position of [r] by std::find, then vector index. *)
Fixpoint findIndex (l : list Z) (r : Z) (i : Z) : Z :=
  match l with [] => i | x :: l' => if x =? r then i else findIndex l' r (i + 1) end.

Definition coordsOfRank (dims : list Z) (r : Z) : list Z :=
  getVectorIndex dims (findIndex (fillPartitionCoords dims) r 0).

(** MPICartesianUtils.hpp:100-109, getRankFromPartitionCoords. *)
Definition rankOfCoords (dims c : list Z) : Z :=
  nth (Z.to_nat (sequentialIndex dims c)) (fillPartitionCoords dims) 0.

(** DistributedFullGrid.hpp:887-897, getLowerBounds(r). *)
Definition lowerBounds (dims : list Z) (dec : list (list Z)) (r : Z) : list Z :=
  map2 (fun d c => nth (Z.to_nat c) d 0) dec (coordsOfRank dims r).

(** DistributedFullGrid.hpp:913-933, getUpperBounds(r): lower bound of the next neighbour in the dimension, or the
    global size at the end of the domain. *)
Definition upperBounds (dims sizes : list Z) (dec : list (list Z)) (r : Z) : list Z :=
  let coords := coordsOfRank dims r in
  map (fun i =>
         if nth i coords 0 <? nth i dims 0 - 1
         then nth i (lowerBounds dims dec (rankOfCoords dims (upd coords i (nth i coords 0 + 1)))) 0
         else nth i sizes 0)
      (seq 0 (length dims)).

(** DistributedFullGrid.hpp:1054-1068, getPartitionCoords: the last partition whose lower bound is not above the
    index; -1 if there is none. *)
Definition partitionCoord1d (dec1 : list Z) (x : Z) : Z :=
  fold_left (fun acc i => if nth i dec1 0 <=? x then Z.of_nat i else acc) (seq 0 (length dec1)) (-1).

Definition partitionCoords (dec : list (list Z)) (v : list Z) : list Z := map2 partitionCoord1d dec v.

(** std::lower_bound on a sorted range: position of the first element that is not less than [x]. *)
Fixpoint lowerBoundPos (l : list Z) (x : Z) : Z :=
  match l with [] => 0 | y :: l' => if y <? x then 1 + lowerBoundPos l' x else 0 end.

(** DistributedFullGrid.hpp:959-976, getNeighbor1dFromAxisIndex: the partition index in one dimension;
    -1 outside of the domain. *)
Definition neighbor1dPartition (dec1 : list Z) (size idx : Z) : Z :=
  if idx <? 0 then -1 else if size - 1 <? idx then -1 else lowerBoundPos dec1 (idx + 1) - 1.
