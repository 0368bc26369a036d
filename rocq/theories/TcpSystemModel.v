(** Model of a combination of two whole systems over the network: hierarchization on both systems, the exchange of TcpModel on all
    ranks, dehierarchization (src/manager/ProcessManager.hpp:505-526, ProcessGroupWorker.cpp:475-488, 726-792, 1003-1022). *)
From Verif Require Import Base TensorModel PartitionModel DecompModel SubspaceModel Hier1dModel DistHierModel HierNDModel
  SparseGridModel CombineModel ReduceModel CombiStepModel SystemModel WideModel WideSystemModel TcpModel.
From Coq Require Import QArith Qcanon.
Open Scope Z_scope.

(** The tasks of all groups of a system, and what the processes have beside them (the tasks in [nSys] are not used). *)
Record TcpSystem := { nTasks : list (list SysTask); nSys : TSys }.

(** The state of the ranks, with their parts of the tasks. *)
Definition localTProc (y : Setup) (ts : list (list SysTask)) (rp : nat * TProc) : TProc :=
  {| tGroups := map (fun gc => withTasks (fst gc) (snd gc)) (combine (tGroups (snd rp)) (map (map (localTask y (Z.of_nat (fst rp)))) ts));
     tExtra := tExtra (snd rp) |}.
Definition localSys (y : Setup) (X : TcpSystem) : TSys :=
  {| tThird := tThird (nSys X); tProcs := map (localTProc y (nTasks X)) (indexed (tProcs (nSys X))); tCounts := tCounts (nSys X) |}.

(** The parts of the tasks by rank and group. *)
Definition rankTasks (y : Setup) (ts : list (list SysTask)) : list (list (list Comp)) :=
  map (fun r => map (map (localTask y r)) ts) (zrange 0 (zprod (yProcs y))).

(** See [startTcp]. *)
Definition startTcpSystem (y : Setup) (esz : Z) (extra : bool) (third1 third2 : nat) (ts1 ts2 : list (list SysTask)) (X1 X2 : TcpSystem) : Prop :=
  exists S1 S2, startTcp esz (yLevels y) extra third1 third2 (rankTasks y ts1) (rankTasks y ts2) S1 S2 /\
    X1 = {| nTasks := ts1; nSys := S1 |} /\ X2 = {| nTasks := ts2; nSys := S2 |}.

(** ProcessManager.hpp:505-526 on both managers: combineSystemWide hierarchizes (ProcessGroupWorker.cpp:475-488), the third level
    group and the others dehierarchize after extracting (726-732, called in 783 and 1021); [staleH1], ...: the contents of the work buffers. *)
Definition combineTcpSystem (y : Setup) (esz chunk1 chunk2 : Z) (staleH1 staleD1 staleH2 staleD2 : nat -> Z -> Z -> arr) (X1 X2 X1' X2' : TcpSystem) : Prop :=
  exists u1 u2 R1 R2 w1 w2, sweepTasks y false staleH1 (nTasks X1) = Some u1 /\ sweepTasks y false staleH2 (nTasks X2) = Some u2 /\
    combineTcp esz (yLevels y) chunk1 chunk2 (localSys y {| nTasks := u1; nSys := nSys X1 |}) (localSys y {| nTasks := u2; nSys := nSys X2 |}) R1 R2 /\
    sweepTasks y true staleD1 (gatherTasks u1 (map tGroups (tProcs R1))) = Some w1 /\ sweepTasks y true staleD2 (gatherTasks u2 (map tGroups (tProcs R2))) = Some w2 /\
    X1' = {| nTasks := w1; nSys := R1 |} /\ X2' = {| nTasks := w2; nSys := R2 |}.
