(** Model of the file-based exchange with other systems: waiting for the token files of the other systems, reducing their sparse grids,
    removing the files, and the reduction of the subspace sizes. src/manager/SparseGridWorker.hpp, src/manager/ProcessGroupManager.cpp. *)
From Verif Require Import Base FileModel ReduceModel.
From Coq Require Import String DecimalString.
Open Scope Z_scope.

(** ** Token files *)
(** [query t i]: the answer of the [t]-th question whether the token file of system [i] exists. FileInputOutput.cpp:51-58,
    getFileExistsRootOnly: asked by the root and broadcast, so all processes of the output communicator have the same answer. *)
Definition oracle := nat -> nat -> bool.

(** SparseGridWorker.hpp:876-907, the for loop over the set (ascending): the first index whose token exists, and the number of questions so far. *)
Fixpoint scanTokens (query : oracle) (t : nat) (indices : list nat) : nat * option nat :=
  match indices with
  | [] => (t, None)
  | i :: rest => if query t i then (S t, Some i) else scanTokens query (S t) rest
  end.

(** SparseGridWorker.hpp:859-914, readReduce. [read i s]: reading the file of system [i] in state [s] ([None]: an exception or no return).
    Result: the order of the reads and the state; [None]: more than [fuel] rounds, or a failed read. The sleep of 200 ms is not modelled. *)
Fixpoint readLoop {S : Type} (query : oracle) (read : nat -> S -> option S) (fuel t : nat) (indices done : list nat) (s : S) : option (list nat * S) :=
  match indices with
  | [] => Some (done, s)
  | _ => match fuel with
         | O => None
         | Datatypes.S fuel' =>
             match scanTokens query t indices with
             | (t', None) => readLoop query read fuel' t' indices done s
             | (t', Some i) => match read i s with
                               | None => None
                               | Some s' => readLoop query read fuel' t' (filter (fun j => negb (Nat.eqb j i)) indices) (done ++ [i]) s'
                               end
             end
         end
  end.

(** SparseGridWorker.hpp:888-899: reading with reduction by addition, or overwriting, of the values of all processes of the output communicator.
    The extra sparse grid is the target, copyDataFrom to the combined one after every read is not modelled here. *)
Definition readReduce {A : Type} (add : A -> A -> A) (files : nat -> option (list A)) (buffer : nat) (overwrite : bool)
    (query : oracle) (fuel n : nat) (own : list (list A)) : option (list nat * list (list A)) :=
  readLoop query (fun i s => if overwrite then readValues (files i) s else readReduceValues fuel add (files i) buffer s) fuel 0 (seq 0 n) [] own.

(** ** Removing files *)
(** std::to_string of a part number. *)
Definition toString (n : nat) : string := NilEmpty.string_of_uint (Nat.to_uint n).
(** SparseGridWorker.hpp:1073-1074, 888-889: the name of the file with part [p] of the sparse grid of a system. *)
Definition partName (prefixName : string) (p : nat) : string := (prefixName ++ "_0" ++ ".part" ++ toString p)%string.
(** std::string::find(...) != npos. *)
Fixpoint contains (pattern s : string) : bool :=
  String.prefix pattern s || match s with EmptyString => false | String _ s' => contains pattern s' end.
(** SparseGridWorker.hpp:1057-1083, removeReadingFiles with an output communicator and keepSparseGridFiles = false: the sparse grid
    files left in the current directory; directory_iterator(".") gives "./" and the name. Token files and the file without a part
    number, which is removed too, are not modelled. *)
Definition removeReadingFiles (prefixes : list string) (part : nat) (directory : list string) : list string :=
  filter (fun file => negb (existsb (fun p => contains (partName p part) ("./" ++ file)) prefixes)) directory.

(** ** Subspace sizes *)
(** SparseGridWorker.hpp:786-802, maxReduceSubspaceSizesInOutputGroup, CombiCom.hpp:446-460 (MPI_Reduce with MPI_MAX over the groups):
    the sizes of the system on one process of the output group. *)
Definition systemSizes (n groups : nat) (sizes : nat -> list Z) : list Z := map (maxSize groups sizes) (zrange 0 (Z.of_nat n)).

(** SparseGridWorker.hpp:972-976, moreThanOneFunctionInstantiation on SubspaceSizeType = uint32_t. *)
Definition moreThanOne (a b c : Z) : Z := let m := Z.max a (Z.max b c) in if (a + b + c) mod 2 ^ 32 >? m then m else 0.

(** SparseGridWorker.hpp:917-996, reduceExtraSubspaceSizes with overwrite = false: the sizes of the extra sparse grid of all processes
    of the output group. The buffer has one place per subspace (DistributedSparseGridIO.hpp:242-244, 259-261). *)
Definition reduceExtraSizes (n : nat) (files : list (option (list Z))) (own : list (list Z)) : option (list (list Z)) :=
  match files with
  | [f] => readReduceValues 1 Z.min f n own
  | [f; g] => readReduceValues2 1 moreThanOne f g n own
  | _ => None
  end.

(** SparseGridWorker.hpp:992-993: the sizes of the combined sparse grid afterwards. *)
Definition enlargedSizes (combined extra : list Z) : list Z := map2 Z.max combined extra.

(** ProcessGroupManager.cpp:253-327, reduceLocalAndRemoteSubspaceSizes: the gathered sizes after the exchange. *)
Definition managerSizes (extraSparseGrid : bool) (sent received : list Z) : list Z := map2 (if extraSparseGrid then Z.min else Z.max) sent received.
(** ProcessGroupManager.cpp:288-296, 315-323: std::accumulate(from, to, 0) adds in int; stored as size_t. *)
Definition accumulateInt (sizes : list Z) : Z := fold_left (fun acc s => i32 (acc + s)) sizes 0 mod 2 ^ 64.
Fixpoint sizesPerWorker (counts : list nat) (sizes : list Z) : list Z :=
  match counts with
  | [] => []
  | c :: rest => accumulateInt (firstn c sizes) :: sizesPerWorker rest (skipn c sizes)
  end.
