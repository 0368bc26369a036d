(** Model of the report of the extreme coefficients per subspace: DistributedSparseGridIO::writeMinMaxCoefficents
    (src/sparsegrid/DistributedSparseGridIO.hpp:16-72), its callers SparseGridWorker::writeMinMaxCoefficients
    (src/manager/SparseGridWorker.hpp:1170-1179), ProcessGroupWorker (src/manager/ProcessGroupWorker.cpp:412-415, 645-648) and
    ProcessManager (src/manager/ProcessManager.cpp:578-580), and the collection during a combination
    (SparseGridWorker.hpp:364-452). One sparse grid per process (numGrids = 1); [nG] groups of [nP] processes; process [(g, p)]
    is rank [p] of group [g] and rank [g] of its communicator across the groups. MPI_Reduce by specification. *)
From Verif Require Import Base SparseGridModel.
From Verif Require Import DofModel TensorModel.
From Coq Require Import QArith Qcanon.
Open Scope Z_scope.

(** DistributedSparseGridUniform.hpp: what a process holds: min- and maxCoefficientPerSubspace_ ([None]: both empty), and the
    sparse grid. *)
Record MProc := { mAcc : option (list Qc * list Qc); mDsg : DSG }.
Definition MSys := nat -> nat -> MProc.
Definition setMProc (s : MSys) (g p : nat) (x : MProc) : MSys :=
  fun g' p' => if (Nat.eqb g' g && Nat.eqb p' p)%bool then x else s g' p'.

(** DistributedSparseGridUniform.hpp:747-760: the data of every allocated subspace of positive size are read through its
    pointer; after deleteSubspaceData (101-107) that pointer is null. *)
Definition readsNull (d : DSG) : bool :=
  existsb (fun i => (dataSize d i >? 0) && match nth (Z.to_nat i) (dPtr d) None with Some _ => false | None => true end) (dWith d).

(** DistributedSparseGridUniform.hpp:732-762 with the undefined reads made visible. *)
Definition accumulateProc (x : MProc) : option MProc :=
  if readsNull (mDsg x) then None else Some {| mAcc := Some (accumulateMinMax (mDsg x) (mAcc x)); mDsg := mDsg x |}.

(** DistributedSparseGridIO.hpp:36-38: only if nothing was collected before. *)
Definition ensureCollected (x : MProc) : option (list Qc * list Qc) :=
  match mAcc x with Some m => Some m | None => match accumulateProc x with Some y => mAcc y | None => None end end.

(** DistributedSparseGridIO.hpp:16-30: MPI_Reduce of a vector with MPI_MIN or MPI_MAX to rank 0, element by element. *)
Fixpoint zipWithQ (f : Qc -> Qc -> Qc) (a b : list Qc) : list Qc :=
  match a, b with x :: a', y :: b' => f x y :: zipWithQ f a' b' | _, _ => [] end.
Definition reduceVectors (f : Qc -> Qc -> Qc) (vs : list (list Qc)) : list Qc :=
  match vs with [] => [] | v :: r => fold_left (zipWithQ f) r v end.
(** DistributedSparseGridIO.hpp:43-44 and 66-68 (47-48 and 60-63): minima and maxima. *)
Definition reduceBoth (ms : list (list Qc * list Qc)) : list Qc * list Qc :=
  (reduceVectors qmin (map fst ms), reduceVectors qmax (map snd ms)).

Fixpoint allSome {A} (l : list (option A)) : option (list A) :=
  match l with
  | [] => Some []
  | Some x :: r => match allSome r with Some ys => Some (x :: ys) | None => None end
  | None :: _ => None
  end.

(** DistributedSparseGridIO.hpp:50-58: one line per subspace whose minimum is below the largest double. *)
Definition minMaxLines (levels : list (list Z)) (m : list Qc * list Qc) : list (list Z * Qc * Qc) :=
  flat_map (fun i => let mn := nth i (fst m) 0%Qc in let mx := nth i (snd m) 0%Qc in
                     match (mn ?= dblMax)%Qc with Lt => [(nth i levels [], mn, mx)] | _ => [] end)
           (seq 0 (length levels)).

(** Who calls writeMinMaxCoefficents. ProcessGroupWorker.cpp:645-648: every process of every group; ProcessManager.cpp:578-580:
    the manager signals the last group only. *)
Inductive MCaller := ByWorkers | ByManager.
Definition callingGroups (c : MCaller) (nG : nat) : list nat :=
  match c with ByWorkers => seq 0 nG | ByManager => match nG with O => [] | S k => [k] end end.

(** DistributedSparseGridIO.hpp:32-72. Rank 0 of every calling group takes part in the reduction across the groups; the result
    arrives at group 0, and only if all [nG] members call it; then the file is written. Without group 0 nobody writes (the
    other members hand in their values and go on, or wait forever). [None]: data were read through a null pointer. *)
Definition writeMinMax (levels : list (list Z)) (nG nP : nat) (c : MCaller) (s : MSys)
  : option (MSys * option (list (list Z * Qc * Qc))) :=
  let gs := callingGroups c nG in
  match allSome (map (fun g => allSome (map (fun p => ensureCollected (s g p)) (seq 0 nP))) gs) with
  | None => None
  | Some mss =>
      let roots := map reduceBoth mss in
      let file := if Nat.eqb (length gs) nG then Some (minMaxLines levels (reduceBoth roots)) else None in
      Some (fun g p => if existsb (Nat.eqb g) gs && Nat.ltb p nP then {| mAcc := None; mDsg := mDsg (s g p) |} else s g p, file)
  end.

(** What happens to the sparse grids between two reports. [MStore]: any other change of the sparse grid of a process (a
    combination without collection, a deletion of the data). [MCollect]: the sparse grid holds [d] and the coefficients are
    collected, SparseGridWorker.hpp:412-414 and 440-442, once per chunk. *)
Inductive MOp :=
| MStore (g p : nat) (d : DSG)
| MCollect (g p : nat) (d : DSG)
| MWrite (c : MCaller).

Definition stepMinMax (levels : list (list Z)) (nG nP : nat) (o : MOp) (s : MSys)
  : option (MSys * list (option (list (list Z * Qc * Qc)))) :=
  match o with
  | MStore g p d => Some (setMProc s g p {| mAcc := mAcc (s g p); mDsg := d |}, [])
  | MCollect g p d =>
      match accumulateProc {| mAcc := mAcc (s g p); mDsg := d |} with Some x => Some (setMProc s g p x, []) | None => None end
  | MWrite c => match writeMinMax levels nG nP c s with Some (s', f) => Some (s', [f]) | None => None end
  end.

(** A sequence of operations; the files in the order of the calls ([None]: no file). *)
Fixpoint runMinMax (levels : list (list Z)) (nG nP : nat) (ops : list MOp) (s : MSys)
  : option (MSys * list (option (list (list Z * Qc * Qc)))) :=
  match ops with
  | [] => Some (s, [])
  | o :: r =>
      match stepMinMax levels nG nP o s with
      | Some (s', f) => match runMinMax levels nG nP r s' with Some (s'', fs) => Some (s'', f ++ fs) | None => None end
      | None => None
      end
  end.

(** DistributedSparseGridUniform.hpp:392-431: at the start no process has collected anything or holds data. *)
Definition startMinMax (n : nat) : MSys := fun _ _ => {| mAcc := None; mDsg := initDSG n |}.
