(** Model of the files with the values of a distributed sparse grid, one per process: DistributedSparseGridIO::writeToDiskChunked and
    readFromDiskChunked (src/sparsegrid/DistributedSparseGridIO.hpp:74-93). Simplified: a file holds values instead of their bytes, opening
    and writing always work, and no two processes have the same file open at the same time. *)
From Verif Require Import Base NetModel.
Open Scope Z_scope.

(** DistributedSparseGridIO.hpp:76, 85: prefix and rank. Names are lists of characters; std::to_string is that of NetModel. *)
Definition chunkName (filePrefix : list Z) (rank : nat) : list Z := filePrefix ++ toString (Z.of_nat rank).

(** The directory, and the values in the sparse grid of every rank. *)
Record disk (A : Type) := Disk { dFiles : list Z -> option (list A); dData : nat -> list A }.
Arguments Disk {A}. Arguments dFiles {A}. Arguments dData {A}.

(** What the calls at DistributedSparseGridIO.hpp:75-76 and 84-85 change. *)
Definition setFile {A} (f : list Z -> option (list A)) (name : list Z) (v : list A) : list Z -> option (list A) :=
  fun n => if list_eq_dec Z.eq_dec n name then Some v else f n.
Definition setData {A} (f : nat -> list A) (rank : nat) (v : list A) : nat -> list A := fun r => if Nat.eqb r rank then v else f r.

(** DistributedSparseGridIO.hpp:75-81: std::ios::out without app replaces the content. *)
Definition writeToDiskChunked {A} (rank : nat) (filePrefix : list Z) (s : disk A) : disk A :=
  Disk (setFile (dFiles s) (chunkName filePrefix rank) (dData s rank)) (dData s).

(** DistributedSparseGridIO.hpp:84-93. [None]: file_size throws because there is no such file, or, with [asserts], the assertion of line 88
    stops the program. A read past the end of the file keeps what it got; the values behind it stay (line 90-91, the state of the stream
    is not looked at). *)
Definition readFromDiskChunked {A} (asserts : bool) (rank : nat) (filePrefix : list Z) (s : disk A) : option (disk A) :=
  match dFiles s (chunkName filePrefix rank) with
  | None => None
  | Some v =>
      let old := dData s rank in
      if asserts && negb (Nat.eqb (length v) (length old)) then None
      else Some (Disk (dFiles s) (setData (dData s) rank (firstn (length old) v ++ skipn (length v) old)))
  end.

(** What the processes do, in the order in which it takes effect: calls of the two functions (DistributedSparseGridIO.hpp:75, 84) and
    other changes of the values of a process. *)
Inductive chunkEvent (A : Type) :=
  | EWrite (rank : nat) (filePrefix : list Z)
  | ERead (rank : nat) (filePrefix : list Z)
  | EChange (rank : nat) (values : list A).
Arguments EWrite {A}. Arguments ERead {A}. Arguments EChange {A}.

(** DistributedSparseGridIO.hpp:74-93, any sequence of calls. *)
Fixpoint runChunks {A} (asserts : bool) (events : list (chunkEvent A)) (s : disk A) : option (disk A) :=
  match events with
  | [] => Some s
  | EWrite r p :: rest => runChunks asserts rest (writeToDiskChunked r p s)
  | ERead r p :: rest => match readFromDiskChunked asserts r p s with None => None | Some s' => runChunks asserts rest s' end
  | EChange r v :: rest => runChunks asserts rest (Disk (dFiles s) (setData (dData s) r v))
  end.
