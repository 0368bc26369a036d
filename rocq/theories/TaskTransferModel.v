(** Model of task objects, their archives, ids and fault criteria: src/task/Task.hpp, src/fault_tolerance/StaticFaults.hpp and
    .cpp, WeibullFaults.hpp and .cpp, FaultCriterion.hpp, FTUtils.hpp. Archives are token sequences as in ParamsModel.
    Simplified: members of derived tasks, the load model (a pointer that is not transferred and not used by the groups) and
    the grids are left out; times are integers (ticks of the clock). *)
From Verif Require Import Base FaultModel ParamsModel.
From Coq Require Import String QArith Qcanon List.
Import ListNotations.
Open Scope list_scope.
Open Scope Z_scope.

(** FaultCriterion.hpp:17-49; StaticFaults.hpp:19 with FTUtils.hpp:93-98; WeibullFaults.hpp:20-30 (shape, scale, whether masters
    may fail, number of combinations, time of the fault, start). *)
Inductive crit :=
| CritBase
| CritStatic (num : Z) (its ranks : list Z)
| CritWeibull (k lambda : Qc) (faultMaster : bool) (numCombis : Z) (tFault start : Z).

(** StaticFaults.cpp:10-27 (FaultModel.failNow), WeibullFaults.cpp:20-47, FaultCriterion.hpp:28-31: [master] tells if the process is the
    master of its group, [now] is the clock. *)
Definition critFail (c : crit) (master : bool) (now ncombi rank : Z) : option bool :=
  match c with
  | CritBase => Some false
  | CritStatic _ its ranks => failNow its ranks ncombi rank
  | CritWeibull _ _ fm nc tf start =>
      if negb fm && master then Some false
      else if ncombi =? nc - 1 then Some false
      else Some (tf <? now - start)
  end.
(** WeibullFaults.cpp:49-62, FaultCriterion.hpp:37-40: init with the start and a time of the fault; [sample] is the random time that is
    drawn if the given one is negative. *)
Definition critInit (c : crit) (start tf sample : Z) : crit :=
  match c with
  | CritWeibull k lambda fm nc _ _ => CritWeibull k lambda fm nc (if tf <? 0 then sample else tf) start
  | _ => c
  end.

(** Task.hpp:390-404, 94: the members. *)
Record taskObj := TaskObj {
  oDim : Z; oId : Z; oLevel : list Z; oCoeff : Qc; oBoundary : list Z; oFinished : bool; oCrit : option crit }.

(** StaticFaults.hpp:22-25, FTUtils.hpp:108-113; WeibullFaults.hpp:32-39; a pointer is written as the name of the class and the members.
    t_fault_ and startTimeIteration_ are not written. *)
Definition saveCrit (c : option crit) : list token :=
  match c with
  | None => [TClass None]
  | Some CritBase => [TStr "FaultCriterion"]
  | Some (CritStatic n its ranks) => TStr "StaticFaults" :: saveInt n ++ saveVec saveInt its ++ saveVec saveInt ranks
  | Some (CritWeibull k lambda fm nc _ _) => TStr "WeibullFaults" :: [TReal k] ++ [TReal lambda] ++ saveBool fm ++ saveInt nc
  end.
(** Reading: the objects are made by the default constructors, StaticFaults.cpp:7 and WeibullFaults.cpp:14 (t_fault_ = -1, the clock's epoch
    as start), then the members are read. *)
Definition loadCrit (t : list token) : option (option crit * list token) :=
  match t with
  | TClass None :: r => Some (None, r)
  | TStr s :: r =>
      if String.eqb s "FaultCriterion" then Some (Some CritBase, r)
      else if String.eqb s "StaticFaults" then
        load n, r from loadInt r then
        load its, r from loadVec loadInt r then
        load ranks, r from loadVec loadInt r then Some (Some (CritStatic n its ranks), r)
      else if String.eqb s "WeibullFaults" then
        load k, r from loadReal r then
        load lambda, r from loadReal r then
        load fm, r from loadBool r then
        load nc, r from loadInt r then Some (Some (CritWeibull k lambda fm nc (-1) 0), r)
      else None
  | _ => None
  end.

(** Task.hpp:379-387, serialize. *)
Definition saveTask (x : taskObj) : list token :=
  saveCrit (oCrit x) ++ saveInt (oDim x) ++ saveInt (oId x) ++ saveVec saveInt (oLevel x) ++ [TReal (oCoeff x)]
  ++ saveVec saveInt (oBoundary x) ++ saveBool (oFinished x).
Definition loadTask (t : list token) : option taskObj :=
  load c, t from loadCrit t then
  load dim, t from loadInt t then
  load id, t from loadInt t then
  load l, t from loadVec loadInt t then
  load q, t from loadReal t then
  load b, t from loadVec loadInt t then
  load f, rest from loadBool t then Some (TaskObj dim id l q b f c).

(** All processes: the static counter Task::count (Task.hpp:400, 408) and the task objects of each. *)
Definition procTasks := (Z * list taskObj)%type.
Definition procsTasks := nat -> procTasks.
Definition setProc (s : procsTasks) (p : nat) (v : procTasks) : procsTasks := fun q => if Nat.eqb q p then v else s q.
Definition replaceNth {A} (i : nat) (x : A) (l : list A) : list A := firstn i l ++ x :: skipn (S i) l.

(** What happens to tasks: construction (Task.hpp:55-68, 80-83), setFinished (263), initialization of the criterion, deletion, and
    send with receive (102-139) or one receiver of broadcast (144-192). *)
Inductive taskOp :=
| OCreate (p : nat) (dim : Z) (l : list Z) (b : list Z) (q : Qc) (c : option crit)
| OFinish (p i : nat) (f : bool)
| OInit (p i : nat) (start tf sample : Z)
| ODelete (p i : nat)
| OSend (p i q : nat).

(** [None]: there is no such object, or the archive cannot be read. *)
Definition stepTask (s : procsTasks) (o : taskOp) : option procsTasks :=
  match o with
  | OCreate p dim l b q c =>
      let (count, xs) := s p in Some (setProc s p (count + 1, xs ++ [TaskObj dim count l q b false c]))
  | OFinish p i f =>
      let (count, xs) := s p in
      match nth_error xs i with
      | Some x => Some (setProc s p (count, replaceNth i (TaskObj (oDim x) (oId x) (oLevel x) (oCoeff x) (oBoundary x) f (oCrit x)) xs))
      | None => None
      end
  | OInit p i start tf sample =>
      let (count, xs) := s p in
      match nth_error xs i with
      | Some x => Some (setProc s p (count, replaceNth i (TaskObj (oDim x) (oId x) (oLevel x) (oCoeff x) (oBoundary x) (oFinished x)
                                              (option_map (fun c => critInit c start tf sample) (oCrit x))) xs))
      | None => None
      end
  | ODelete p i => let (count, xs) := s p in Some (setProc s p (count, firstn i xs ++ skipn (S i) xs))
  | OSend p i q =>
      match nth_error (snd (s p)) i with
      | Some x =>
          match loadTask (saveTask x) with
          | Some y => let (count, ys) := s q in Some (setProc s q (count, ys ++ [y]))
          | None => None
          end
      | None => None
      end
  end.
Fixpoint runTasks (s : procsTasks) (os : list taskOp) : option procsTasks :=
  match os with
  | [] => Some s
  | o :: os' => match stepTask s o with Some s' => runTasks s' os' | None => None end
  end.
(** Task.hpp:408: all counters start at 0. *)
Definition noTasks : procsTasks := fun _ => (0, []).
