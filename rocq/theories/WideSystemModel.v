(** Model of a combination of several whole systems through files: hierarchization on all systems, the exchange of
    WideModel on all ranks, dehierarchization (src/manager/ProcessGroupWorker.cpp:491-535, 726-732, 841-894). All processes
    of an output group write to one file. *)
From Verif Require Import Base TensorModel PartitionModel DecompModel SubspaceModel Hier1dModel DistHierModel HierNDModel
  SparseGridModel CombineModel ReduceModel CombiStepModel FileModel ExchangeModel SystemModel WideModel.
From Coq Require Import QArith Qcanon.
Open Scope Z_scope.

(** The tasks of every system and group, and the sparse grids that the processes of every system have (the tasks
    in [wProcs] are not used). *)
Record WideSys := { wTasks : list (list (list SysTask)); wProcs : list (list Proc) }.

(** The state of the ranks, with their parts of the tasks. *)
Definition withTasks (g : Group) (cs : list Comp) : Group := {| gTasks := cs; gDsg := gDsg g; gComms := gComms g |}.
Definition localProc (y : Setup) (ts : list (list SysTask)) (rp : nat * Proc) : Proc :=
  {| pGroups := map (fun gc => withTasks (fst gc) (snd gc)) (combine (pGroups (snd rp)) (map (map (localTask y (Z.of_nat (fst rp)))) ts));
     pExtra := pExtra (snd rp) |}.
Definition localProcs (y : Setup) (W : WideSys) : list (list Proc) :=
  map (fun tp => map (localProc y (fst tp)) (indexed (snd tp))) (combine (wTasks W) (wProcs W)).

(** The parts of the tasks by system, rank and group. *)
Definition processTasks (y : Setup) (tasks : list (list (list SysTask))) : list (list (list (list Comp))) :=
  map (fun ts => map (fun r => map (map (localTask y r)) ts) (zrange 0 (zprod (yProcs y)))) tasks.

(** ProcessGroupWorker.cpp:966-1000 on all systems. *)
Definition startWideSystem (y : Setup) (esz : Z) (conf : nat -> Conf) (tasks : list (list (list SysTask))) : option WideSys :=
  match startWide esz (yLevels y) conf (processTasks y tasks) with
  | None => None
  | Some ws => Some {| wTasks := tasks; wProcs := ws |}
  end.

(** TaskWorker.hpp:86-105 (29-48) on all systems; [stale s]: the contents of the work buffers on system [s]. *)
Definition sweepSystems (y : Setup) (dehier : bool) (stale : nat -> nat -> Z -> Z -> arr) (tasks : list (list (list SysTask)))
  : option (list (list (list SysTask))) := mapO (fun st => sweepTasks y dehier (stale (fst st)) (snd st)) (indexed tasks).

Definition gatherWide (tasks : list (list (list SysTask))) (ws : list (list Proc)) : list (list (list SysTask)) :=
  map (fun tp => gatherTasks (fst tp) (map pGroups (snd tp))) (combine tasks ws).

(** ProcessGroupWorker.cpp:491-526, combineSystemWideAndWrite, and 874-894, 726-732, combineReadDistributeSystemWide, on all
    systems. *)
Definition combineWideSystem (y : Setup) (esz : Z) (conf : nat -> Conf) (fuel : nat) (olds : nat -> option (list Qc))
  (staleH staleD : nat -> nat -> Z -> Z -> arr) (W : WideSys) : option WideSys :=
  match sweepSystems y false staleH (wTasks W) with
  | None => None
  | Some ts =>
      match combineWide esz (yLevels y) conf fuel olds (localProcs y {| wTasks := ts; wProcs := wProcs W |}) with
      | None => None
      | Some ws => match sweepSystems y true staleD (gatherWide ts ws) with
                   | None => None
                   | Some ts' => Some {| wTasks := ts'; wProcs := ws |}
                   end
      end
  end.
