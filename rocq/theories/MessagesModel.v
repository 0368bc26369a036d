(** Model of the lists of tasks that manager and process groups keep, of the norms that are sent from one to the other, and of the parameters that
    a group receives after a signal (src/manager/ProcessGroupManager.cpp, ProcessGroupWorker.cpp, ProcessManager.cpp, TaskWorker.hpp). *)
From Coq Require Import QArith Qcanon.
From Verif Require Import Base InterpModel.
Open Scope Z_scope.

(** ** Lists of tasks and norms *)
Record gtask := GT { gtId : Z; gtLevel : list Z }.
(** A process group: the tasks in the list of its manager (ProcessGroupManager.hpp:302), those of its processes (TaskWorker.hpp:144), and whether it
    has crashed since its tasks were sent. *)
Record grp := GR { gMgr : list gtask; gWrk : list gtask; gBroken : bool }.
Fixpoint removeFirst (p : gtask -> bool) (l : list gtask) : list gtask := match l with [] => [] | t :: r => if p t then r else t :: removeFirst p r end.
Definition hasId (k : Z) (t : gtask) : bool := gtId t =? k.
Definition hasLevel (l : list Z) (t : gtask) : bool := if list_eq_dec Z.eq_dec (gtLevel t) l then true else false.
Inductive gop :=
| GSend (t : gtask)             (* runfirst, addTask, recompute, rescheduleAddTask *)
| GRemove (level : list Z)      (* rescheduleRemoveTask *)
| GReinit (ignore : list Z)     (* reInitializeGroup *)
| GCrash (rest : list gtask).   (* processes of the group fail; what the others have is not used any more *)
(** ProcessGroupManager.cpp:23-53 with ProcessGroupWorker.cpp:149-150, 168-171, 273-275, 368-371 and TaskWorker.hpp:110-115;
    ProcessGroupManager.cpp:784-807 with ProcessGroupWorker.cpp:384-411 and TaskWorker.hpp:120-124;
    ProcessManager.cpp:220-243 with ProcessGroupManager.cpp:542-579, ProcessGroupManager.hpp:434-445 and ProcessGroupWorker.cpp:168-182.
    Tasks are compared by their ids instead of their addresses. [None]: the manager waits for a task that the group does not have. *)
Definition stepGroup (o : gop) (g : grp) : option grp :=
  match o with
  | GSend t => Some (GR (gMgr g ++ [t]) (gWrk g ++ [t]) (gBroken g))
  | GRemove level =>
      match find (hasLevel level) (gMgr g) with
      | None => Some g
      | Some t => if existsb (hasId (gtId t)) (gWrk g) then Some (GR (removeFirst (hasLevel level) (gMgr g)) (removeFirst (hasId (gtId t)) (gWrk g)) (gBroken g)) else None
      end
  | GReinit ignore =>
      let ignored t := existsb (Z.eqb (gtId t)) ignore in
      Some (GR (fold_left (fun m t => removeFirst (hasId (gtId t)) m) (filter ignored (gMgr g)) (gMgr g)) (filter (fun t => negb (ignored t)) (gMgr g)) false)
  | GCrash rest => Some (GR (gMgr g) rest true)
  end.
(** A new task has an id that no group has yet (ProcessManager.cpp:40-46, 183-201, 262-285, 598-602). Failed groups may be given up (328-332). *)
Definition allowed (s : list grp) (o : gop) : Prop := match o with GSend t => ~ In (gtId t) (map gtId (flat_map gMgr s)) | _ => True end.
Inductive reachable (n : nat) : list grp -> Prop :=
| R_start : reachable n (repeat (GR [] [] false) n)
| R_step : forall s1 g s2 o g', reachable n (s1 ++ g :: s2) -> allowed (s1 ++ g :: s2) o -> stepGroup o g = Some g' -> reachable n (s1 ++ g' :: s2)
| R_drop : forall s1 g s2, reachable n (s1 ++ g :: s2) -> reachable n (s1 ++ s2).

(** std::map<size_t, double>, the entries in the order of their insertion. *)
Fixpoint setKey (m : list (Z * Qc)) (k : Z) (v : Qc) : list (Z * Qc) :=
  match m with [] => [(k, v)] | (k', v') :: r => if k' =? k then (k, v) :: r else (k', v') :: setKey r k v end.
Fixpoint getKey (m : list (Z * Qc)) (k : Z) : option Qc := match m with [] => None | (k', v) :: r => if k' =? k then Some v else getKey r k end.
(** ProcessGroupManager.cpp:655-681, TaskWorker.hpp:66-74, ProcessGroupWorker.cpp:303-333: the norms come in the order of the group's list, and are stored
    under the ids of the manager's list. [None]: the message is longer than the buffer. *)
Definition groupNorms (norm : gtask -> Qc) (g : grp) (m : list (Z * Qc)) : option (list (Z * Qc)) :=
  let buf := map norm (gWrk g) in
  if Nat.ltb (length (gMgr g)) (length buf) then None
  else Some (fold_left (fun m j => setKey m (gtId (nth j (gMgr g) (GT 0 []))) (nth j buf 0%Qc)) (seq 0 (length (gMgr g))) m).
(** ProcessManager.cpp:423-431. *)
Fixpoint systemNorms (norm : gtask -> Qc) (s : list grp) (m : list (Z * Qc)) : option (list (Z * Qc)) :=
  match s with [] => Some m | g :: r => match groupNorms norm g m with Some m' => systemNorms norm r m' | None => None end end.
(** ProcessManager.cpp:433-448, getLpNorm. *)
Definition systemNorm (norm : gtask -> Qc) (coeff : Z -> Qc) (s : list grp) : option Qc :=
  option_map (fun m => combinedNorm (map (fun e => (snd e, coeff (fst e))) m)) (systemNorms norm s []).

(** ** Parameters that follow a signal *)
Section Calls.
Context {A : Type}.
(** Messages of the manager to the master of a group in the order of sending, with their tags. MPI gives the first one with the tag of the receive;
    if sends wait for the receive ([sync]), the only one that is there is the first one. *)
Fixpoint takeTag (tag : Z) (msgs : list (Z * A)) : option (A * list (Z * A)) :=
  match msgs with
  | [] => None
  | (t, a) :: r => if t =? tag then Some (a, r) else match takeTag tag r with Some (b, r') => Some (b, (t, a) :: r') | None => None end
  end.
Definition takeMessage (sync : bool) (tag : Z) (msgs : list (Z * A)) : option (A * list (Z * A)) :=
  if sync then match msgs with (t, a) :: r => if t =? tag then Some (a, r) else None | [] => None end else takeTag tag msgs.
(** ProcessGroupWorker.cpp:206-225, 353-367: each argument of a function call receives a message (25-34, 72-102). [params]: their tags. C++ leaves open the
    [order] in which the arguments are evaluated. [None]: the group waits for a message that is not sent. *)
Fixpoint receiveArgs (sync : bool) (params : list Z) (order : list nat) (msgs : list (Z * A)) (args : nat -> option A) : option (nat -> option A) :=
  match order with
  | [] => Some args
  | i :: r => match takeMessage sync (nth i params 0) msgs with
              | Some (a, msgs') => receiveArgs sync params r msgs' (fun j => if Nat.eqb j i then Some a else args j)
              | None => None
              end
  end.
Definition callArgs (sync : bool) (params : list Z) (order : list nat) (msgs : list (Z * A)) : option (list (option A)) :=
  option_map (fun args => map args (seq 0 (length params))) (receiveArgs sync params order msgs (fun _ => None)).
(** MPITags.hpp:9, 19. *)
Definition classTag : Z := 32766.
Definition interpolationTag : Z := 32756.
(** ProcessGroupManager.cpp:141-146, 157-159, 172-174 with ProcessGroupWorker.cpp:208-209, 214-215, 220-223: two or four names. *)
Definition fileCall (sync : bool) (order : list nat) (names : list A) : option (list (option A)) :=
  callArgs sync (repeat classTag (length names)) order (map (pair classTag) names).
(** ProcessGroupManager.cpp:720-733, 745-752 with ProcessGroupWorker.cpp:355-357, 363-365: the name is sent before the coordinates. *)
Definition interpolationCall (sync : bool) (order : list nat) (name coords : A) : option (list (option A)) :=
  callArgs sync [interpolationTag; classTag] order [(classTag, name); (interpolationTag, coords)].
End Calls.
