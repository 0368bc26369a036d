(** Model of a combination of several whole systems through files in the variant chunkedOutgroupSparseGridReduce: hierarchization on all
    systems, the exchange of WideChunkedModel on all ranks, dehierarchization (src/manager/ProcessGroupWorker.cpp:491-535,
    726-732, 841-894). All processes of an output group write to one file. *)
From Verif Require Import Base TensorModel PartitionModel DecompModel SubspaceModel Hier1dModel DistHierModel HierNDModel
  SparseGridModel CombineModel ReduceModel CombiStepModel FileModel ExchangeModel SystemModel WideModel WideSystemModel WideChunkedModel.
From Coq Require Import QArith Qcanon.
Open Scope Z_scope.

(** ProcessGroupWorker.cpp:966-1000 on all systems. *)
Definition startChunkedSystem (y : Setup) (esz : Z) (conf : nat -> Conf) (tasks : list (list (list SysTask))) : option WideSys :=
  match startChunked esz (yLevels y) conf (processTasks y tasks) with
  | None => None
  | Some ws => Some {| wTasks := tasks; wProcs := ws |}
  end.

(** ProcessGroupWorker.cpp:491-526, combineSystemWideAndWrite, and 874-894, 726-732, combineReadDistributeSystemWide, on all
    systems. *)
Definition combineChunkedSystem (y : Setup) (esz : Z) (conf : nat -> Conf) (fuel : nat) (olds : nat -> option (list Qc))
  (staleH staleD : nat -> nat -> Z -> Z -> arr) (W : WideSys) : option WideSys :=
  match sweepSystems y false staleH (wTasks W) with
  | None => None
  | Some ts =>
      match combineChunked esz (yLevels y) conf fuel olds (localProcs y {| wTasks := ts; wProcs := wProcs W |}) with
      | None => None
      | Some ws => match sweepSystems y true staleD (gatherWide ts ws) with
                   | None => None
                   | Some ts' => Some {| wTasks := ts'; wProcs := ws |}
                   end
      end
  end.
