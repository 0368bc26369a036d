(** Model of gathering a distributed grid, of mirroring a boundary and of the exchange of ghost layers,
    src/fullgrid/DistributedFullGrid.hpp. *)
From Verif Require Import Base TensorModel PartitionModel DecompModel SubspaceModel Hier1dModel DofModel InterpModel.
From Coq Require Import QArith Qcanon.
Open Scope Z_scope.

(** MPI_Type_create_subarray with MPI_ORDER_FORTRAN (MPI standard): element [m] of the type is the element of the full array
    at the start indices plus the m-th multi-index of the sub-box. *)
Definition subarrayElement (sizes subsizes starts : list Z) (m : Z) : Z :=
  sequentialIndex sizes (vadd starts (getVectorIndex subsizes m)).

(** A message of [values] received into the elements of a subarray. *)
Definition receiveInto (sizes subsizes starts : list Z) (values : arr) (buffer : arr) : arr :=
  fold_left (fun t p => setA t (fst p) (snd p))
            (map (fun m => (subarrayElement sizes subsizes starts m, values m)) (zrange 0 (tensorSize subsizes))) buffer.

(** DistributedFullGrid.hpp:1231-1279, gatherFullGrid on the root: one receive per rank. [order] is the order in which the messages
    arrive, [fg] the contents of the full grid before. The full grid has the sizes of the distributed one. *)
Definition gatherFullGrid (procs sizes : list Z) (decs : list (list Z)) (order : list Z) (data : Z -> arr) (fg : arr) : arr :=
  fold_left (fun t r => let lo := lowerBounds procs decs r in
                        receiveInto sizes (vsub (upperBounds procs sizes decs r) lo) lo (data r) t) order fg.

(** MPI_Cart_shift (MPI standard): (source, destination) at distance [disp] in dimension [d]; [None] is MPI_PROC_NULL. *)
Definition cartNeighbor (procs : list Z) (periodic : bool) (r : Z) (d : nat) (disp : Z) : option Z :=
  let c := coordsOfRank procs r in
  let x := nth d c 0 + disp in
  if periodic then Some (rankOfCoords procs (upd c d (x mod nth d procs 0)))
  else if (0 <=? x) && (x <? nth d procs 0) then Some (rankOfCoords procs (upd c d x)) else None.
Definition cartShift (procs : list Z) (periodic : bool) (r : Z) (d : nat) (disp : Z) : option Z * option Z :=
  (cartNeighbor procs periodic r d (- disp), cartNeighbor procs periodic r d disp).

(** DistributedFullGrid.hpp:1876-1898, getUpwardSubarray, and 1917-1940, getDownwardSubarray: (sub-sizes, starts). *)
Definition upwardSubarray (lo up : list Z) (d : nat) : list Z * list Z :=
  let subLower := upd lo d (nth d lo 0 + (nth d (vsub up lo) 0 - 1)) in (vsub up subLower, vsub subLower lo).
Definition downwardSubarray (lo up : list Z) (d : nat) : list Z * list Z :=
  let subUpper := upd up d (nth d up 0 - (nth d (vsub up lo) 0 - 1)) in (vsub subUpper lo, vsub lo lo).

(** The bounds of a rank. *)
Definition loOf (procs : list Z) (decs : list (list Z)) (r : Z) : list Z := lowerBounds procs decs r.
Definition upOf (procs sizes : list Z) (decs : list (list Z)) (r : Z) : list Z := upperBounds procs sizes decs r.

(** A layer packed for sending: element [m] of the message. *)
Definition packed (procs sizes : list Z) (decs : list (list Z)) (sub : list Z * list Z) (s : Z) (data : arr) : arr := fun m =>
  data (subarrayElement (vsub (upOf procs sizes decs s) (loOf procs decs s)) (fst sub) (snd sub) m).

(** DistributedFullGrid.hpp:1564-1583, writeLowerBoundaryToUpperBoundary, with getHighestAndLowestNeighbor (1544-1561): on all ranks.
    Every rank sends its lowest layer to the rank P-1 above it and receives from the rank P-1 below it, where there is one.
    The communicator is not periodic in a dimension with two-sided boundary (ProcessGroupWorker.cpp:684-692). *)
Definition writeLowerToUpper (procs sizes : list Z) (decs : list (list Z)) (d : nat) (data : Z -> arr) : Z -> arr := fun r =>
  match fst (cartShift procs false r d (nth d procs 0 - 1)) with
  | None => data r
  | Some s =>
      let up := upwardSubarray (loOf procs decs r) (upOf procs sizes decs r) d in
      receiveInto (vsub (upOf procs sizes decs r) (loOf procs decs r)) (fst up) (snd up)
        (packed procs sizes decs (downwardSubarray (loOf procs decs s) (upOf procs sizes decs s) d) s (data s)) (data r)
  end.

(** DistributedFullGrid.hpp:1586-1640, exchangeGhostLayerUpward: extents and contents of the received buffer. Periodic in dimensions
    with one-sided boundary. *)
Definition ghostLayer (procs sizes : list Z) (decs : list (list Z)) (periodic : bool) (d : nat) (data : Z -> arr) (r : Z) : list Z * arr :=
  let extents := upd (vsub (upOf procs sizes decs r) (loOf procs decs r)) d 1 in
  match fst (cartShift procs periodic r d 1) with
  | None => (map (fun _ => 0) extents, fun _ => 0%Qc)
  | Some s => (extents, packed procs sizes decs (upwardSubarray (loOf procs decs s) (upOf procs sizes decs s) d) s (data s))
  end.
