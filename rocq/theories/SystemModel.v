(** Model of a combination of the whole system: all process groups with all their processes
    (src/manager/ProcessGroupWorker.cpp:538-564, src/manager/TaskWorker.hpp:29-48 and 86-105). *)
From Verif Require Import Base TensorModel PartitionModel DecompModel SubspaceModel Hier1dModel DistHierModel HierNDModel
  SparseGridModel CombineModel ReduceModel CombiStepModel.
From Coq Require Import QArith Qcanon.
Open Scope Z_scope.

(** What is common to all processes: the parameters of CombiParameters (src/manager/CombiParameters.hpp:
    the parallelization, boundary types, reference level [yRef] (getLMax) and its decomposition, the arguments of the
    hierarchization) and the levels of the sparse grid. *)
Record Setup := { yProcs : list Z; yBnds : list Z; yRef : list Z; yDecs : list (list Z);
                  yDims : list bool; yBases : list basis; yLmin : list Z; yLevels : list (list Z) }.

(** A task of the whole process group: its level, its combination coefficient, how the threads of rank [r] share its levels
    and the values on rank [r]. *)
Record SysTask := { sLevel : list Z; sCoeff : Qc; sThreads : Z -> list (list (list Z)); sData : Z -> arr }.

(** The tasks of every group, and on rank [r] of every group the sparse grid and subspacesByComm_. *)
Record System := { sTasks : list (list SysTask); sDsgs : Z -> list (DSG * list (list nat * list Z)) }.

Definition withData (t : SysTask) (d : Z -> arr) : SysTask :=
  {| sLevel := sLevel t; sCoeff := sCoeff t; sThreads := sThreads t; sData := d |}.

(** TaskWorker.hpp:33-34 and 38-39 (90-91, 95-96): minimum level 0 everywhere if some dimension has no boundary points. *)
Definition effectiveLmin (y : Setup) : list Z :=
  if existsb (fun b => b =? 0) (yBnds y) then repeat 0 (length (yLmin y)) else yLmin y.

(** ProcessGroupWorker.cpp:666-673: the grid of a task of level [L], as hierarchization sees it. *)
Definition taskCfg (y : Setup) (L : list Z) : HCfg :=
  {| hProcs := yProcs y; hLevels := L; hBnds := yBnds y; hDecs := downsampleDecomposition (yDecs y) (yRef y) L (yBnds y);
     hDims := yDims y; hBases := yBases y; hLmin := effectiveLmin y |}.

(** The part of the task on rank [r], as the combination sees it. *)
Definition localTask (y : Setup) (r : Z) (t : SysTask) : Comp :=
  {| cGrid := gridOfRank (yProcs y) (sLevel t) (yBnds y) (downsampleDecomposition (yDecs y) (yRef y) (sLevel t) (yBnds y)) r;
     cCoeff := sCoeff t; cValues := sData t r; cThreads := sThreads t r |}.

(** Rank [r] of every group: these processes form one global-reduce communicator (MPISystem.cpp:403-419). *)
Definition localGroups (y : Setup) (S : System) (r : Z) : list Group :=
  map (fun p => {| gTasks := map (localTask y r) (fst p); gDsg := fst (snd p); gComms := snd (snd p) |})
      (combine (sTasks S) (sDsgs S r)).

(** TaskWorker.hpp:86-105 (29-48) in all groups, one grid per task; [stale] are the contents of work buffers. *)
Definition sweepTask (y : Setup) (dehier : bool) (stale : nat -> Z -> Z -> arr) (t : SysTask) : option SysTask :=
  match (if dehier then dehierarchizeAll else hierarchizeAll) (taskCfg y (sLevel t)) stale (sData t) with
  | None => None
  | Some d => Some (withData t d)
  end.
Definition sweepTasks (y : Setup) (dehier : bool) (stale : nat -> Z -> Z -> arr) (tasks : list (list SysTask))
  : option (list (list SysTask)) := mapO (mapO (sweepTask y dehier stale)) tasks.

(** The results of the ranks put together again. *)
Definition resultAt (gss : list (list Group)) (r : Z) (g k : nat) : arr :=
  match nth_error (nth (Z.to_nat r) gss []) g with
  | Some G => match nth_error (gTasks G) k with Some c => cValues c | None => fun _ => 0%Qc end
  | None => fun _ => 0%Qc
  end.
Definition gatherTasks (tasks : list (list SysTask)) (gss : list (list Group)) : list (list SysTask) :=
  map (fun gt => map (fun kt => withData (snd kt) (fun r => resultAt gss r (fst gt) (fst kt)))
                     (combine (seq 0 (length (snd gt))) (snd gt)))
      (combine (seq 0 (length tasks)) tasks).
Definition gatherDsgs (gss : list (list Group)) (r : Z) : list (DSG * list (list nat * list Z)) :=
  map (fun g => (gDsg g, gComms g)) (nth (Z.to_nat r) gss []).

(** SparseGridWorker.hpp:708-746 and 1032-1055 on all ranks: registering the tasks before the first combination. *)
Definition startSystem (y : Setup) (v : CombinationVariant) (esz : Z) (tasks : list (list SysTask)) : option System :=
  match mapO (fun r => initGroups v esz (yLevels y) (map (map (localTask y r)) tasks)) (zrange 0 (zprod (yProcs y))) with
  | None => None
  | Some gss => Some {| sTasks := tasks; sDsgs := gatherDsgs gss |}
  end.

(** ProcessGroupWorker.cpp:538-564, combineAtOnce in all groups: hierarchize, reduce and distribute on every rank (with the
    order [order r] of the communicators), dehierarchize. *)
Definition combineSystem (y : Setup) (v : CombinationVariant) (esz chunkSize : Z) (order : Z -> list (list nat))
  (staleH staleD : nat -> Z -> Z -> arr) (S : System) : option System :=
  match sweepTasks y false staleH (sTasks S) with
  | None => None
  | Some tasks =>
      let S1 := {| sTasks := tasks; sDsgs := sDsgs S |} in
      match mapO (fun r => combineStep v esz chunkSize (order r) (yLevels y) (localGroups y S1 r)) (zrange 0 (zprod (yProcs y))) with
      | None => None
      | Some gss =>
          match sweepTasks y true staleD (gatherTasks tasks gss) with
          | None => None
          | Some tasks' => Some {| sTasks := tasks'; sDsgs := gatherDsgs gss |}
          end
      end
  end.
