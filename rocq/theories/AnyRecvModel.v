(** Model of receiving from MPI_ANY_SOURCE in the fault simulator, src/mpi_fault_simulator/Sim_FT_recv.cpp:24-58 and 75-96. Every pass of
    the loop sees an environment as in SimTestModel (what is known of the communicator, the status message that MPI_Iprobe finds, and in
    [eRet] what the real MPI_Recv of line 79 or 81 would return). The waiting for the simulated timeout (89-92) has no effect. *)
From Verif Require Import Base SimTestModel.
Open Scope Z_scope.

(** MPI_ANY_SOURCE: a number that is no rank. *)
Definition anySource : Z := -1.

(** What the call does: passes before the return, return value, ranks inserted into dead_set, ranks that are sent an alive message. *)
Inductive anyOutcome := AnyWaiting | AnyReturned (n : nat) (c : code) (learned answered : list Z).

(** Sim_FT_recv.cpp:35-57, the loop, and 75-96 after it. *)
Fixpoint recvAnyFrom (k : nat) (envs : list testEnv) : anyOutcome :=
  match envs with
  | [] => AnyWaiting
  | e :: envs' =>
      if negb (Nat.eqb (length (eDead e)) 0) && negb (eAcked e) then AnyReturned k CPending [] []
      else match eProbe e with
           | Some (src, m) =>
               match m with
               | MAlive | MAliveNB => AnyReturned k (eRet e) [] [src]
               | MRevoked => AnyReturned k CRevoked [] [src]
               | MDead => AnyReturned k CFailed [anySource] [src]
               end
           | None => if eRevoked e then AnyReturned k CRevoked [] [] else recvAnyFrom (S k) envs'
           end
  end.
(** Sim_FT_recv.cpp:11-13: nothing is done if the communicator is revoked at the start. *)
Definition recvAny (revoked : bool) (envs : list testEnv) : anyOutcome := if revoked then AnyReturned 0 CRevoked [] [] else recvAnyFrom 0 envs.
