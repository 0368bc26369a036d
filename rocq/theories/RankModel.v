(** Model of the communicators, src/mpi/MPISystem.cpp and MPISystem.hpp. A communicator is the list of the world ranks of its
    members in the order of their ranks in it. Ranks are int in the code. *)
From Verif Require Import Base.
Open Scope Z_scope.

(** MPISystem.cpp:65-92, initSystemConstants: the manager's world rank, [None] inside for MPI_PROC_NULL; [None] if it throws. *)
Definition managerRankWorld (ngroup nprocs worldSize : Z) (withManager : bool) : option (option Z) :=
  if withManager then if worldSize =? ngroup * nprocs + 1 then Some (Some (worldSize - 1)) else None
  else if worldSize =? ngroup * nprocs then Some None else None.

(** MPI_Comm_split (MPI standard): the members of colour [c], by key, ties by rank in the old communicator; MPI_UNDEFINED is
    [None]. [members] is the old communicator, [color] and [key] are functions of the rank in it. *)
Fixpoint insertByKey (key : Z -> Z) (r : Z) (l : list Z) : list Z :=
  match l with [] => [r] | x :: l' => if key r <? key x then r :: l else x :: insertByKey key r l' end.
Definition hasColor (color : Z -> option Z) (c r : Z) : bool := match color r with Some c' => c' =? c | None => false end.
Definition splitRanks (size : Z) (color : Z -> option Z) (key : Z -> Z) (c : Z) : list Z :=
  fold_left (fun l r => insertByKey key r l) (filter (hasColor color c) (zrange 0 size)) [].
Definition commSplit (members : list Z) (color : Z -> option Z) (key : Z -> Z) (c : Z) : list Z :=
  map (fun r => nth (Z.to_nat r) members 0) (splitRanks (Z.of_nat (length members)) color key c).

Definition worldComm (worldSize : Z) : list Z := zrange 0 worldSize.

(** MPISystem.cpp:251-260, initLocalComm: colour and key of every world rank (the manager's communicator is dropped by
    storeLocalComm, 262-291). *)
Definition localColor (nprocs r : Z) : option Z := Some (r / nprocs).
Definition localKey (nprocs r : Z) : Z := r - (r / nprocs) * nprocs.
Definition localComm (nprocs worldSize g : Z) : list Z := commSplit (worldComm worldSize) (localColor nprocs) (localKey nprocs) g.

(** MPISystem.cpp:403-421, initGlobalReduceCommm. *)
Definition reduceColor (nprocs : Z) (manager : option Z) (r : Z) : option Z :=
  match manager with Some m => if r =? m then None else Some (r mod nprocs) | None => Some (r mod nprocs) end.
Definition reduceKey (nprocs r : Z) : Z := r / nprocs.
Definition globalReduceComm (nprocs worldSize : Z) (manager : option Z) (c : Z) : list Z :=
  commSplit (worldComm worldSize) (reduceColor nprocs manager) (reduceKey nprocs) c.

(** MPISystem.cpp:303-361, initGlobalComm: the ranks given to MPI_Group_incl. *)
Definition globalComm (ngroup nprocs : Z) (manager : option Z) : list Z :=
  map (fun i => i * nprocs) (zrange 0 ngroup) ++ match manager with Some m => [m] | None => [] end.

(** MPISystem.cpp:374-401, initThirdLevelComms: the communicator of group [g]; rank of the manager in it: [nprocs]. *)
Definition thirdLevelComm (nprocs : Z) (manager : Z) (g : Z) : list Z := map (fun p => g * nprocs + p) (zrange 0 nprocs) ++ [manager].

(** MPISystem.hpp:152-157, getProcessGroupNumber of a worker, and 670-674, getOutputRankInGlobalReduceComm. *)
Definition processGroupNumber (nprocs r : Z) : Z := r / nprocs.
Definition outputRankInGlobalReduceComm (ngroup localRank : Z) : Z := localRank mod ngroup.

(** MPISystem.cpp:424-437, getDiagonalRanks: both loops, with the return as soon as there are [nprocs] ranks ([Datatypes.inr]). *)
Definition diagonalStep (nprocs ngroup diagonal : Z) (acc : list Z + list Z) (p : Z) : list Z + list Z :=
  match acc with
  | inr done => inr done
  | inl ranks => let ranks' := ranks ++ [(nprocs + 1) * p + diagonal * ngroup] in
                 if Z.of_nat (length ranks') =? nprocs then inr ranks' else inl ranks'
  end.
Definition getDiagonalRanks (nprocs ngroup : Z) : list Z :=
  match fold_left (fun acc diagonal => fold_left (diagonalStep nprocs ngroup diagonal) (zrange 0 ngroup) acc)
                  (zrange 0 (nprocs / ngroup + 1)) (inl []) with inl r => r | inr r => r end.

(** MPISystem.cpp:439-474, initOutputGroupComm: the communicator of file part colour [c]. Division by zero where there are
    more parts than processes is not modelled. *)
Definition outputComm (nprocs ngroup numFileParts c : Z) : list Z :=
  let group := getDiagonalRanks nprocs ngroup in
  if numFileParts =? 1 then group
  else let size := nprocs / numFileParts in commSplit group (fun r => Some (r / size)) (fun r => r mod size) c.
(** The colour the process with rank [k] in the output group gives. *)
Definition outputColor (nprocs numFileParts k : Z) : Z := if numFileParts =? 1 then 0 else k / (nprocs / numFileParts).

(** MPISystem.hpp:609-622, getFilePartNumber on the process with rank [k] in the output group. *)
Definition filePartNumber (nprocs ngroup numFileParts k : Z) : Z :=
  k / Z.of_nat (length (outputComm nprocs ngroup numFileParts (outputColor nprocs numFileParts k))).
