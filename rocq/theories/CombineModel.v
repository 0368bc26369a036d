(** Model of one process' part in the combination step: its tasks and its sparse grid
    (src/manager/SparseGridWorker.hpp, ProcessGroupWorker.cpp). *)
From Verif Require Import Base TensorModel Level1dModel LevelSetsModel SubspaceModel CombiSchemeModel Hier1dModel SparseGridModel.
From Coq Require Import QArith Qcanon.
Open Scope Z_scope.

(** A task as the combination sees it: the process' part of its component grid, its combination coefficient, the local
    (hierarchized) values, and how the OpenMP runtime hands out the levels of its down set to threads in the loops of
    registerDistributedFullGrid, addDistributedFullGrid and extractFromUniformSG. *)
Record Comp := { cGrid : Grid; cCoeff : Qc; cValues : arr; cThreads : list (list (list Z)) }.

Definition withValues (c : Comp) (v : arr) : Comp :=
  {| cGrid := cGrid c; cCoeff := cCoeff c; cValues := v; cThreads := cThreads c |}.

(** SparseGridWorker.hpp:728-733: registering all tasks. *)
Fixpoint registerAll (levels : list (list Z)) (cs : list Comp) (d : DSG) : option DSG :=
  match cs with
  | [] => Some d
  | c :: cs' => match registerDFG levels (cThreads c) (cGrid c) d with None => None | Some d' => registerAll levels cs' d' end
  end.

(** SparseGridWorker.hpp:1008-1014 ([fully] = true), 400-403 and 431-435 ([fully] = false): adding all tasks. *)
Fixpoint addAll (fully : bool) (levels : list (list Z)) (cs : list Comp) (d : DSG) : option DSG :=
  match cs with
  | [] => Some d
  | c :: cs' => match addDFG fully levels (cThreads c) (cGrid c) (cCoeff c) (cValues c) d with
                | None => None | Some d' => addAll fully levels cs' d' end
  end.

(** SparseGridWorker.hpp:615-625 ([fully] = true), 417-420 and 444-447 ([fully] = false): extracting into all tasks. *)
Fixpoint extractAll (fully : bool) (levels : list (list Z)) (d : DSG) (cs : list Comp) : option (list Comp) :=
  match cs with
  | [] => Some []
  | c :: cs' => match extractDFG fully levels (cThreads c) d (cGrid c) (cValues c), extractAll fully levels d cs' with
                | Some v, Some r => Some (withValues c v :: r)
                | _, _ => None
                end
  end.

(** SparseGridWorker.hpp:1202-1208, zeroDsgsData for the variants that keep the whole sparse grid allocated
    (isSubspaceDataCreated: the buffer is not empty, DistributedSparseGridUniform.hpp:119). *)
Definition zeroDsgData (esz : Z) (d : DSG) : DSG := setZero (if dLen d =? 0 then createSubspaceData esz d else d).
