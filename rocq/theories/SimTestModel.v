(** Model of testing and waiting for requests in the fault simulator, src/mpi_fault_simulator/Sim_FT_test.cpp, Sim_FT_wait.cpp,
    Sim_FT_waitall.cpp and Sim_FT_request_free.cpp. Each call of Sim_FT_MPI_Test sees an environment: what is known of the communicator
    at that time (after the background operations, Sim_FT_test.cpp:7-8) and what the calls of the real MPI return. The process that
    tests is not killed. Statuses are not modelled. *)
From Verif Require Import Base.
Open Scope Z_scope.

(** The return values; [COther] for the codes of the real MPI and for -1. *)
Inductive code := CSuccess | CRevoked | CPending | CFailed | COther (z : Z).

(** MPI-FT.h:62-69: what an alive message says; [MDead] for everything else. *)
Inductive aliveMsg := MAlive | MAliveNB | MRevoked | MDead.

(** MPI-FT.h:261-272, the request (completition_err_code is -1 at first): point to point (1) with its partner ([None] for MPI_ANY_SOURCE), or collective (2). [rActive]: c_request
    is not MPI_REQUEST_NULL. *)
Inductive requestKind := P2P (partner : option Z) | Collective.
Record request := Request { rKind : requestKind; rActive : bool; rCompleted : bool; rCode : code }.
(** What a request variable holds: a request, the null pointer (Sim_FT_request_free.cpp:7), or the address of Sim_FT_MPI_REQUEST_NULL,
    whose type is 0. *)
Inductive requestVar := Points (r : request) | NullPointer | RequestNull.

(** Sim_FT_irecv.cpp:25-32, Sim_FT_isend.cpp:18-25: a new request. *)
Definition newRequest (partner : option Z) : requestVar := Points (Request (P2P partner) true false (COther (-1))).

(** The environment of one test: the communicator (revoked, known dead, failures acknowledged), the result of MPI_Test, and the message
    that MPI_Iprobe finds, if any. *)
Record testEnv := TestEnv { eRevoked : bool; eDead : list Z; eAcked : bool; eFlag : bool; eRet : code; eProbe : option (Z * aliveMsg) }.

(** What a test does: the request variable afterwards, the flag, the return value, the processes inserted into dead_set and those
    that are sent an alive message. *)
Record testResult := TestResult { tVar : requestVar; tFlag : bool; tRet : code; tLearned : list Z; tAnswered : list Z }.

(** Sim_FT_test.cpp:16, 25, 32 with Sim_FT_request_free.cpp:4-9: the request is freed only if the real one is active. *)
Definition freeIfActive (r : request) : requestVar := if rActive r then NullPointer else Points r.

(** Sim_FT_test.cpp:5-127, Sim_FT_MPI_Test; [None] for following the null pointer (13). *)
Definition testRequest (e : testEnv) (v : requestVar) : option testResult :=
  match v with
  | NullPointer => None
  | RequestNull => Some (TestResult v false (COther (-1)) [] [])
  | Points r =>
      match rKind r with
      | P2P partner =>
          if eRevoked e then Some (TestResult (freeIfActive r) true CRevoked [] [])
          else if match partner with None => negb (Nat.eqb (length (eDead e)) 0) && negb (eAcked e) | Some _ => false end
               then Some (TestResult (freeIfActive r) true CPending [] [])
          else if match partner with None => false | Some q => existsb (Z.eqb q) (eDead e) end
               then Some (TestResult (freeIfActive r) true CFailed [] [])
          else if negb (rCompleted r) then
            if eFlag e then Some (TestResult (Points (Request (rKind r) false true (eRet e))) false (eRet e) [] [])
            else Some (TestResult v false (eRet e) [] [])
          else match eProbe e with
               | None => Some (TestResult v false CSuccess [] [])
               | Some (src, m) =>
                   let answered := match partner with None => [src] | Some _ => [] end in
                   match m with
                   | MAlive | MAliveNB => Some (TestResult RequestNull true (rCode r) [] answered)
                   | MRevoked => Some (TestResult RequestNull true CRevoked [] answered)
                   | MDead => Some (TestResult RequestNull true CFailed [src] answered)
                   end
               end
      | Collective =>
          if negb (Nat.eqb (length (eDead e)) 0) then Some (TestResult v false CFailed [] [])
          else Some (TestResult (Points (Request Collective (rActive r && negb (eFlag e)) (rCompleted r) (rCode r))) (eFlag e) (eRet e) [] [])
      end
  end.

(** What a wait has come to after the tests in the given environments. *)
Inductive waitOutcome := Waiting (v : requestVar) | Crashed | Returned (tests : nat) (r : testResult).

(** Sim_FT_wait.cpp:5-19, Sim_FT_MPI_Wait: tests until the flag is set; [k] counts the tests before. *)
Fixpoint waitFrom (k : nat) (envs : list testEnv) (v : requestVar) : waitOutcome :=
  match envs with
  | [] => Waiting v
  | e :: envs' =>
      match testRequest e v with
      | None => Crashed
      | Some r => if tFlag r then Returned k r else waitFrom (S k) envs' (tVar r)
      end
  end.
Definition waitRequest := waitFrom 0.

(** Sim_FT_waitall.cpp:6-45, Sim_FT_MPI_Waitall: after the tests in the environments; [todo] are the positions left in this pass over the
    set [active] (in any order). Erasing the element of the loop (35) leaves the iterator of the range-based for invalid, its increment
    is undefined. *)
Inductive waitallOutcome := AllWaiting | AllUndefined | AllReturned (c : code).
Fixpoint waitallFrom (envs : list testEnv) (vars : nat -> requestVar) (active todo : list nat) : waitallOutcome :=
  match envs with
  | [] => AllWaiting
  | e :: envs' =>
      match (match todo with [] => active | _ => todo end) with
      | [] => AllReturned CSuccess
      | i :: rest =>
          match testRequest e (vars i) with
          | None => AllUndefined
          | Some r => if tFlag r then AllUndefined
                      else waitallFrom envs' (fun j => if Nat.eqb j i then tVar r else vars j) active rest
          end
      end
  end.
