(** Model of the manager, the group managers and the process groups: ProcessManager.cpp/.hpp, ProcessGroupManager.cpp/.hpp and
    ProcessGroupWorker.cpp (wait), without fault tolerance (ENABLE_FT is false). The manager executes the calls of its user; each group
    executes the signals it receives one after the other and reports by a status message. Messages on one connection keep their order (MPI),
    everything else may interleave arbitrarily. *)
From Verif Require Import Base.
Open Scope Z_scope.

(** A task: getID, getLevelVector. *)
Record task := Task { tid : Z; tlevel : list Z }.
Definition level_eq_dec := list_eq_dec Z.eq_dec.

(** Signals by their effect on the list of tasks of the workers (ProcessGroupWorker.cpp:148-419). [SAdd]: RUN_FIRST, ADD_TASK, RECOMPUTE,
    RESCHEDULE_ADD_TASK; [SRemove]: RESCHEDULE_REMOVE_TASK; [SWork]: the others but RESET_TASKS and RECOVER_COMM, which belong to the fault
    tolerance. What a signal computes is not part of this model. *)
Inductive sig := SAdd (t : task) | SRemove (id : Z) | SWork.
(** The first task with the ID is removed (ProcessGroupWorker.cpp:399-410). *)
Fixpoint removeId (id : Z) (l : list task) : list task :=
  match l with [] => [] | t :: l' => if tid t =? id then l' else t :: removeId id l' end.
Definition applySig (s : sig) (l : list task) : list task :=
  match s with SAdd t => l ++ [t] | SRemove id => removeId id l | SWork => l end.
Definition hasLevel (lv : list Z) (t : task) : bool := if level_eq_dec (tlevel t) lv then true else false.
(** The first task with the level is removed (ProcessGroupManager.cpp:786-800). *)
Fixpoint removeLevel (lv : list Z) (l : list task) : list task :=
  match l with [] => [] | t :: l' => if hasLevel lv t then l' else t :: removeLevel lv l' end.
(** The task that is sent back to the manager. *)
Definition sentBack (s : sig) (l : list task) : list task :=
  match s with SRemove id => match find (fun t => tid t =? id) l with Some t => [t] | None => [] end | _ => [] end.

(** A group, as seen by the manager (ProcessGroupManager.hpp:299-312: status_, tasks_ and the requests of recvStatus that are not completed),
    on the way (signals, sent back tasks, status messages), and the workers (the signal being executed, the tasks). The last two fields count
    the signals sent and the status messages received by the manager, for the properties only. *)
Record group := Group {
  waiting : bool; mtasks : list task; posted : nat;
  queue : list sig; back : list task; statuses : nat;
  working : bool; wtasks : list task;
  nsent : nat; nreceived : nat }.
(** ProcessGroupManager.cpp:10-15: a new group is waiting. *)
Definition newGroup : group := Group true [] 0 [] [] 0 false [] 0 0.

(** ProcessGroupManager.cpp:61-65, sendSignalToProcessGroup. *)
Definition sendSignal (s : sig) (g : group) : group :=
  Group (waiting g) (mtasks g) (posted g) (queue g ++ [s]) (back g) (statuses g) (working g) (wtasks g) (S (nsent g)) (nreceived g).
(** 67-74, setProcessGroupBusyAndReceive. *)
Definition busyAndReceive (g : group) : group :=
  Group false (mtasks g) (S (posted g)) (queue g) (back g) (statuses g) (working g) (wtasks g) (nsent g) (nreceived g).
(** 34-38, storeTaskReference. *)
Definition setTasks (l : list task) (g : group) : group :=
  Group (waiting g) l (posted g) (queue g) (back g) (statuses g) (working g) (wtasks g) (nsent g) (nreceived g).
(** 22-53, storeTaskReferenceAndSendTaskToProcessGroup of a waiting group. *)
Definition storeAndSend (t : task) (g : group) : group := busyAndReceive (sendSignal (SAdd t) (setTasks (mtasks g ++ [t]) g)).
(** ProcessGroupWorker.cpp:146-419: the next signal is received and its effect on the tasks takes place; a removed task is sent to the manager. *)
Definition startSignal (s : sig) (q : list sig) (g : group) : group :=
  Group (waiting g) (mtasks g) (posted g) q (back g ++ sentBack s (wtasks g)) (statuses g) true (applySig s (wtasks g)) (nsent g) (nreceived g).
(** 421-430: the status is sent. *)
Definition finishSignal (g : group) : group :=
  Group (waiting g) (mtasks g) (posted g) (queue g) (back g) (S (statuses g)) false (wtasks g) (nsent g) (nreceived g).
(** A status message completes the oldest request: ProcessGroupManager.cpp:757-767, MPI writes to status_. *)
Definition deliver (p st : nat) (g : group) : group :=
  Group true (mtasks g) p (queue g) (back g) st (working g) (wtasks g) (nsent g) (S (nreceived g)).
(** ProcessGroupManager.cpp:796: the task is received. *)
Definition takeBack (b : list task) (g : group) : group :=
  Group (waiting g) (mtasks g) (posted g) (queue g) b (statuses g) (working g) (wtasks g) (nsent g) (nreceived g).

(** ** The manager *)
Inductive instr :=
| IAssign (t : task)             (* ProcessManager.hpp:433-445, wait(), and g->runfirst(t), addTask or recompute; any waiting group may be found *)
| IWait (g : nat)                (* ProcessGroupManager.hpp:404-426, waitStatus, or one of the polling loops *)
| ISignal (g : nat) (busy : bool) (* send a signal; [busy]: setProcessGroupBusyAndReceive *)
| ISignalIfTasks (g : nat)       (* ProcessGroupManager.cpp:76-88, runnext *)
| IResched (moves : list (list Z * nat)) (* ProcessManager.cpp:583-604 *)
| IRemoveSend (g : nat) (lv : list Z)    (* ProcessGroupManager.cpp:784-795 *)
| IRemoveRecv (g : nat) (lv : list Z)    (* 796-803 *)
| IAdd (g : nat)                 (* 779-781, with the removed task; a group that is not waiting refuses it (28) and it is lost *)
| ICollect.                      (* ProcessManager.cpp:606-612 *)

Record state := State { prog : list instr; groups : list group; held : option task; allTasks : list task }.
Definition gr (s : state) (g : nat) : group := nth g (groups s) newGroup.
Definition withGroup (s : state) (p : list instr) (g : nat) (x : group) : state := State p (upd (groups s) g x) (held s) (allTasks s).

Definition waitAll (n : nat) : list instr := map IWait (seq 0 n).
(** ProcessManager.cpp:584-589: the group with the level; for equal levels the first insertion counts. *)
Definition groupOfLevel (gs : list group) (lv : list Z) : nat :=
  match find (fun i => existsb (hasLevel lv) (mtasks (nth i gs newGroup))) (seq 0 (length gs)) with
  | Some i => i
  | None => length gs
  end.
(** 592-604; std::map::at of an unknown level is an exception, here a group that does not exist. *)
Definition expandMove (n : nat) (gs : list group) (m : list Z * nat) : list instr :=
  [IRemoveSend (groupOfLevel gs (fst m)) (fst m)] ++ waitAll n ++ [IAdd (snd m)] ++ waitAll n.
Definition expand (n : nat) (gs : list group) (moves : list (list Z * nat)) : list instr := flat_map (expandMove n gs) moves ++ [ICollect].

(** One step of the manager, of a group, or of the delivery of a status. When the manager has to wait there is no step of the manager. *)
Inductive step : state -> state -> Prop :=
| st_assign : forall s t p g, prog s = IAssign t :: p -> (g < length (groups s))%nat -> waiting (gr s g) = true ->
    step s (withGroup s p g (storeAndSend t (gr s g)))
| st_wait : forall s g p, prog s = IWait g :: p -> (g < length (groups s))%nat -> waiting (gr s g) = true -> step s (State p (groups s) (held s) (allTasks s))
| st_signal : forall s g p, prog s = ISignal g true :: p -> (g < length (groups s))%nat -> step s (withGroup s p g (busyAndReceive (sendSignal SWork (gr s g))))
| st_signal_only : forall s g p, prog s = ISignal g false :: p -> (g < length (groups s))%nat -> step s (withGroup s p g (sendSignal SWork (gr s g)))
| st_signal_tasks : forall s g p, prog s = ISignalIfTasks g :: p -> (g < length (groups s))%nat -> mtasks (gr s g) <> [] ->
    step s (withGroup s p g (busyAndReceive (sendSignal SWork (gr s g))))
| st_signal_no_tasks : forall s g p, prog s = ISignalIfTasks g :: p -> (g < length (groups s))%nat -> mtasks (gr s g) = [] -> step s (State p (groups s) (held s) (allTasks s))
| st_resched : forall s moves p, prog s = IResched moves :: p -> step s (State (expand (length (groups s)) (groups s) moves ++ p) (groups s) (held s) (allTasks s))
| st_remove_send : forall s g lv p t, prog s = IRemoveSend g lv :: p -> (g < length (groups s))%nat ->
    find (hasLevel lv) (mtasks (gr s g)) = Some t ->
    step s (withGroup s (IRemoveRecv g lv :: p) g (sendSignal (SRemove (tid t)) (gr s g)))
| st_remove_recv : forall s g lv p r b, prog s = IRemoveRecv g lv :: p -> (g < length (groups s))%nat -> back (gr s g) = r :: b ->
    step s (State p (upd (groups s) g (busyAndReceive (setTasks (removeLevel lv (mtasks (gr s g))) (takeBack b (gr s g))))) (Some r) (allTasks s))
| st_add : forall s g p t, prog s = IAdd g :: p -> (g < length (groups s))%nat -> held s = Some t -> waiting (gr s g) = true ->
    step s (State p (upd (groups s) g (storeAndSend t (gr s g))) None (allTasks s))
| st_add_lost : forall s g p t, prog s = IAdd g :: p -> (g < length (groups s))%nat -> held s = Some t -> waiting (gr s g) = false ->
    step s (State p (groups s) None (allTasks s))
| st_collect : forall s p, prog s = ICollect :: p -> step s (State p (groups s) (held s) (concat (map mtasks (groups s))))
| st_start : forall s g x q, (g < length (groups s))%nat -> queue (gr s g) = x :: q -> working (gr s g) = false ->
    step s (withGroup s (prog s) g (startSignal x q (gr s g)))
| st_finish : forall s g, (g < length (groups s))%nat -> working (gr s g) = true -> step s (withGroup s (prog s) g (finishSignal (gr s g)))
| st_deliver : forall s g p st, (g < length (groups s))%nat -> posted (gr s g) = S p -> statuses (gr s g) = S st ->
    step s (withGroup s (prog s) g (deliver p st (gr s g))).

(** The calls of the user, for [n] groups. *)
Inductive call :=
| CRunfirst (ts : list task)   (* ProcessManager.cpp:28-59 with doInitDSGUs, the tasks sorted *)
| CRunnext                     (* 82-99 *)
| CAll                         (* combine, combineSystemWide, initDsgus, updateCombiParameters: ProcessManager.hpp:466-502, ProcessManager.cpp:122-161 *)
| CEval (g : nat)              (* parallelEval, 388-408 *)
| CThirdLevel (g : nat)        (* combineThirdLevel, ProcessManager.hpp:504-528 *)
| CReschedule (moves : list (list Z * nat)) (* 582-613 *)
| CRedistribute (ts : list task) (* redistribute and recompute with failedRecovery, 181-214, 258-298 *)
| CInterpolate                 (* interpolateValues, getLpNorms, writeInterpolatedValuesSingleFile: a signal to every group, no waiting; 423-478, 491-507 *)
| CMinMax                      (* writeSparseGridMinMaxCoefficients: the last group; 577-580 *)
| CDiagnostics (g : nat)       (* doDiagnostics, 410-421 with ProcessGroupManager.cpp:624-639 *)
| CExit.                       (* 101-120 *)
Definition signalAll (n : nat) : list instr := map (fun g => ISignal g true) (seq 0 n).
Definition compile (n : nat) (c : call) : list instr :=
  match c with
  | CRunfirst ts => map IAssign ts ++ waitAll n ++ waitAll n ++ signalAll n ++ waitAll n
  | CRunnext => waitAll n ++ map ISignalIfTasks (seq 0 n) ++ waitAll n
  | CAll => waitAll n ++ signalAll n ++ waitAll n
  | CEval g => waitAll n ++ [ISignal g true] ++ waitAll n
  | CThirdLevel g => waitAll n ++ signalAll n ++ waitAll n ++ map (fun i => ISignal i true) (filter (fun i => negb (i =? g)%nat) (seq 0 n)) ++ [ISignal g true] ++ waitAll n
  | CReschedule moves => [IResched moves]
  | CRedistribute ts => map IAssign ts ++ waitAll n
  | CInterpolate => ISignal (n - 1) true :: map (fun g => ISignal g true) (seq 0 (n - 1))
  | CMinMax => [ISignal (n - 1) true]
  | CDiagnostics g => [IWait g; ISignal g false]
  | CExit => waitAll n ++ signalAll n
  end.
(** A run: [n] new groups, the manager knows the tasks [ts] (ProcessManager.hpp:392-394). *)
Definition start (n : nat) (ts : list task) (calls : list call) : state := State (flat_map (compile n) calls) (repeat newGroup n) None ts.
