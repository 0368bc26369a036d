(** Model of the recovery after failed process groups, as seen by the manager and the workers: ProcessManager.cpp:163-340,
    ProcessGroupManager.cpp:22-74,524-588, ProcessGroupManager.hpp:369-455, ProcessGroupWorker.cpp:140-182,268-290,419-440, and the order of the
    calls in examples/combi_example_faults/combi_example_faults.cpp:118-180 (the same in tests/test_ftolerance.cpp). No group fails during the
    recovery. The recovery of the communicators (MPISystem::recoverCommunicators) is only visible by its result, whether the failed groups could
    be restored; it is modelled in CommRecoveryModel.v. *)
From Coq Require Import QArith Qcanon.
From Verif Require Import Base.
Open Scope Z_scope.

(** What the component grid of a task contains: the solution of the last run, zeros (ProcessGroupWorker.cpp:168-176, ADD_TASK), or the solution
    recomputed from the last combined solution (273-288, RECOMPUTE). *)
Inductive content := Kept | Zeroed | Redone.
(** A task of the workers of a group: the ID, the combination coefficient and the content. *)
Record wtask := WTask { wid : Z; wcoef : Qc; wcont : content }.
(** A task object (Task.hpp:42-66, 376-396): the ID and coeff_. There is no function that changes coeff_, and it is serialized with the task. *)
Record tobj := TObj { oid : Z; ocoef : Qc }.
(** ProcessGroupManager.hpp and ProcessGroupSignals.hpp: the states of a group. *)
Inductive pstat := PWait | PBusy | PFail.
(** The signals of the recovery; UPDATE_COMBI_PARAMETERS brings the coefficients of CombiParameters. *)
Inductive rsig := GReset | GAdd (t : tobj) | GRecompute (t : tobj) | GParams (c : Z -> Qc).
(** A group: status_ and tasks_ of the ProcessGroupManager, the signal that the workers have not finished yet, the tasks of the workers, and the
    coefficients in their CombiParameters. *)
Record pgroup := PGroup { pst : pstat; ptasks : list tobj; pending : option rsig; wtasks : list wtask; wparams : Z -> Qc }.
Definition noGroup : pgroup := PGroup PFail [] None [] (fun _ => 0%Qc).

(** ProcessGroupWorker.cpp:168-176 (ADD_TASK), 177-182 (RESET_TASKS), 273-288 (RECOMPUTE), 268-272 with 711-723 and 675-709 (the parameters are
    stored; the tasks do not change). *)
Definition applyR (s : rsig) (w : list wtask) : list wtask :=
  match s with
  | GReset => []
  | GAdd t => w ++ [WTask (oid t) (ocoef t) Zeroed]
  | GRecompute t => w ++ [WTask (oid t) (ocoef t) Redone]
  | GParams _ => w
  end.
Definition applyP (s : rsig) (c : Z -> Qc) : Z -> Qc := match s with GParams c' => c' | _ => c end.

(** ProcessManager.cpp:167-179, getGroupFaultIDs: the positions of the failed groups and the tasks they had. *)
Definition isFail (g : pgroup) : bool := match pst g with PFail => true | _ => false end.
Definition failedGroups (gs : list pgroup) : list nat := filter (fun i => isFail (nth i gs noGroup)) (seq 0 (length gs)).
Definition faultIDs (gs : list pgroup) : list Z := concat (map (fun i => map oid (ptasks (nth i gs noGroup))) (failedGroups gs)).

(** 300-340, recoverCommunicators: [None] is MPI_Abort. If the failed groups could be restored ([failedRecovery] is false) they are waiting
    again, what their workers contain then is arbitrary ([junk]; part of the processes may be new); otherwise they are removed from the list. *)
Definition restored (junk : pgroup -> list wtask) (g : pgroup) : pgroup :=
  if isFail g then PGroup PWait (ptasks g) None (junk g) (wparams g) else g.
Definition recoverComm (failedRecovery : bool) (junk : pgroup -> list wtask) (gs : list pgroup) : option (list pgroup) :=
  if (length gs =? length (failedGroups gs))%nat then None
  else Some (if failedRecovery then filter (fun g => negb (isFail g)) gs else map (restored junk) gs).

(** 186-193, 263-270: the first task object with the ID. *)
Definition findTask (ts : list tobj) (id : Z) : option tobj := find (fun t => oid t =? id) ts.

(** The manager's program. *)
Inductive rinstr :=
| RPoll                                  (* 203-211, 246-253, 286-294: until all groups wait; also waitAllFinished, 360-366 *)
| RReinit (g : nat) (ignore : list Z)    (* 216-243 for one group *)
| RReset (g : nat)                       (* ProcessGroupManager.cpp:563-578, resetTasksWorker *)
| RRefresh (g : nat) (t : tobj)          (* ProcessManager.cpp:227-230: waitStatus, refreshTask *)
| RRemove (g : nat) (t : tobj)           (* ProcessGroupManager.hpp:434-446, removeTask *)
| RAdd (t : tobj)                        (* ProcessManager.cpp:196-200: wait, addTask *)
| RRecompute (avoid : list nat) (t : tobj) (* 273-283: wait or waitAvoid, recompute *)
| RParams (g : nat) (c : Z -> Qc).       (* ProcessGroupManager.cpp:523-535 *)

(** ProcessManager.cpp:224-243. *)
Definition ignored (ignore : list Z) (t : tobj) : bool := existsb (Z.eqb (oid t)) ignore.
Definition expandReinit (g : nat) (ignore : list Z) (ts : list tobj) : list rinstr :=
  RReset g :: map (RRefresh g) (filter (fun t => negb (ignored ignore t)) ts) ++ map (RRemove g) (filter (ignored ignore) ts).
(** ProcessGroupManager.hpp:434-446: the first occurrence of the pointer; two task objects have different IDs. *)
Fixpoint removeObj (t : tobj) (l : list tobj) : list tobj :=
  match l with [] => [] | x :: l' => if oid x =? oid t then l' else x :: removeObj t l' end.

(** Sending a signal: ProcessGroupManager.cpp:55-74; with [store] the task is also appended to tasks_ (22-53). *)
Definition sendR (s : rsig) (g : pgroup) : pgroup := PGroup PBusy (ptasks g) (Some s) (wtasks g) (wparams g).
Definition storeR (t : tobj) (g : pgroup) : pgroup := PGroup (pst g) (ptasks g ++ [t]) (pending g) (wtasks g) (wparams g).
Definition dropR (t : tobj) (g : pgroup) : pgroup := PGroup (pst g) (removeObj t (ptasks g)) (pending g) (wtasks g) (wparams g).
(** The workers process the signal and the manager receives the status. *)
Definition completeR (s : rsig) (g : pgroup) : pgroup := PGroup PWait (ptasks g) None (applyR s (wtasks g)) (applyP s (wparams g)).

Record rstate := RState { rprog : list rinstr; rgroups : list pgroup }.
Definition rg (s : rstate) (g : nat) : pgroup := nth g (rgroups s) noGroup.
Definition setG (s : rstate) (p : list rinstr) (g : nat) (x : pgroup) : rstate := RState p (upd (rgroups s) g x).

(** One step of the manager or of a group. A failed assertion (resetTasksWorker, 567-570; updateCombiParameters, 526, of a group that is not
    waiting) is a state without step of the manager, and so are loops that wait. wait() and waitAvoid() (ProcessManager.hpp:433-464) return a
    waiting group; which one depends on the time at which the groups finish. *)
Inductive rstep : rstate -> rstate -> Prop :=
| rs_poll : forall s p, rprog s = RPoll :: p -> Forall (fun g => pst g = PWait) (rgroups s) -> rstep s (RState p (rgroups s))
| rs_reinit : forall s g ig p, rprog s = RReinit g ig :: p -> (g < length (rgroups s))%nat ->
    rstep s (RState (expandReinit g ig (ptasks (rg s g)) ++ p) (rgroups s))
| rs_reset : forall s g p, rprog s = RReset g :: p -> (g < length (rgroups s))%nat -> pst (rg s g) = PWait ->
    rstep s (setG s p g (sendR GReset (rg s g)))
| rs_refresh : forall s g t p, rprog s = RRefresh g t :: p -> (g < length (rgroups s))%nat -> pst (rg s g) = PWait ->
    rstep s (setG s p g (sendR (GAdd t) (rg s g)))
| rs_remove : forall s g t p, rprog s = RRemove g t :: p -> (g < length (rgroups s))%nat -> rstep s (setG s p g (dropR t (rg s g)))
| rs_add : forall s g t p, rprog s = RAdd t :: p -> (g < length (rgroups s))%nat -> pst (rg s g) = PWait ->
    rstep s (setG s p g (sendR (GAdd t) (storeR t (rg s g))))
| rs_recompute : forall s g av t p, rprog s = RRecompute av t :: p -> (g < length (rgroups s))%nat -> ~ In g av -> pst (rg s g) = PWait ->
    rstep s (setG s p g (sendR (GRecompute t) (storeR t (rg s g))))
| rs_params : forall s g c p, rprog s = RParams g c :: p -> (g < length (rgroups s))%nat -> pst (rg s g) = PWait ->
    rstep s (setG s p g (sendR (GParams c) (rg s g)))
| rs_complete : forall s g x, (g < length (rgroups s))%nat -> pending (rg s g) = Some x -> rstep s (setG s (rprog s) g (completeR x (rg s g))).

Inductive rsteps : nat -> rstate -> rstate -> Prop :=
| rsteps_O : forall s, rsteps 0 s s
| rsteps_S : forall n s s' s'', rstep s s' -> rsteps n s' s'' -> rsteps (S n) s s''.

(** The driver, combi_example_faults.cpp:152-178: [redistributeIDs] and [recomputeIDs] come from recomputeOptimumCoefficients, [newCoeffs] are the
    coefficients of params_ afterwards; [ts] are the tasks of the manager (tasks_). [None]: an ID without task (assert, 195 and 271). *)
Fixpoint mapOption {A B} (f : A -> option B) (l : list A) : option (list B) :=
  match l with
  | [] => Some []
  | x :: l' => match f x, mapOption f l' with Some y, Some r => Some (y :: r) | _, _ => None end
  end.
Definition updateParams (n : nat) (c : Z -> Qc) : list rinstr := RPoll :: map (fun g => RParams g c) (seq 0 n) ++ [RPoll].
Definition recoveryProg (failedRecovery : bool) (failed : list nat) (n : nat) (redistribute recompute : list tobj) (c : Z -> Qc) : list rinstr :=
  (if failedRecovery then map RAdd redistribute else map (fun g => RReinit g (map oid recompute)) failed) ++ [RPoll]
  ++ (if (length recompute =? 0)%nat then [] else map (RRecompute (if failedRecovery then [] else failed)) recompute ++ [RPoll])
  ++ updateParams n c.
Definition startRecovery (failedRecovery : bool) (junk : pgroup -> list wtask) (gs : list pgroup) (ts : list tobj) (redistributeIDs recomputeIDs : list Z)
  (newCoeffs : Z -> Qc) : option rstate :=
  match recoverComm failedRecovery junk gs, mapOption (findTask ts) redistributeIDs, mapOption (findTask ts) recomputeIDs with
  | Some gs', Some rd, Some rc => Some (RState (recoveryProg failedRecovery (failedGroups gs) (length gs') rd rc newCoeffs) gs')
  | _, _, _ => None
  end.

(** ** The combination (SparseGridWorker.hpp:1000-1013, 403, 435: every task is added with t->getCoefficient(), then the groups are summed up).
    [kept] and [redone] are the hierarchical coefficients at one point of the sparse grid. *)
Definition valueOf (kept redone : Z -> Qc) (w : wtask) : Qc :=
  match wcont w with Kept => kept (wid w) | Zeroed => 0%Qc | Redone => redone (wid w) end.
Fixpoint combineTasks (kept redone : Z -> Qc) (l : list wtask) : Qc :=
  match l with [] => 0%Qc | w :: l' => (wcoef w * valueOf kept redone w + combineTasks kept redone l')%Qc end.
Definition combineGroups (kept redone : Z -> Qc) (gs : list pgroup) : Qc :=
  fold_right (fun g acc => (combineTasks kept redone (wtasks g) + acc)%Qc) 0%Qc gs.
