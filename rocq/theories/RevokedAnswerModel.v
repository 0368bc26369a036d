(** Model of what the background operations of the fault simulator do in a revoked communicator: src/mpi_fault_simulator/MPI-FT.cpp:272-320,
    the end of Sim_FT_Perform_background_operations. Messages of the real MPI are in one list; which of several that fit MPI_Iprobe
    finds is arbitrary. The earlier part of the function (dead messages, broadcasts, line 225-270) is not part of this model. *)
From Verif Require Import Base SimTestModel.
Open Scope Z_scope.

(** MPI-FT.h:74, 86. *)
Definition deadTag := 990.
Definition reduceTag := 1009.

(** Status messages are on c_comm_copy_p2p (MPI-FT.cpp:277, 286), reductions of Check_dead_processes and the answer with the next operation
    RevokedComm on c_comm_copy_coll (MPI-FT.cpp:298, 315-316). Other messages on c_comm_copy_coll are not modelled; of the vector that is
    reduced only that it is there. *)
Inductive content := Status (c : aliveMsg) | Reduction | NextRevoked.
Record msg := Msg { mFrom : Z; mTo : Z; mTag : Z; mContent : content }.

(** MPI-FT.cpp:277: any source and any tag. *)
Definition isStatusTo (p : Z) (m : msg) : bool := (mTo m =? p) && match mContent m with Status _ => true | _ => false end.
(** MPI-FT.cpp:298: any source, the tag of the communicator that is not revoked. *)
Definition isReductionTo (p : Z) (m : msg) : bool := (mTo m =? p) && (mTag m =? reduceTag) && match mContent m with Reduction => true | _ => false end.

(** MPI_Iprobe and MPI_Recv (MPI-FT.cpp:277-280, 298-309): the [i]-th of the messages that fit, if there is one. *)
Fixpoint takeNth (f : msg -> bool) (i : nat) (net : list msg) : option (msg * list msg) :=
  match net with
  | [] => None
  | m :: rest =>
      match f m, i with
      | true, O => Some (m, rest)
      | true, S i' => match takeNth f i' rest with None => None | Some (x, r) => Some (x, m :: r) end
      | false, _ => match takeNth f i rest with None => None | Some (x, r) => Some (x, m :: r) end
      end
  end.

(** MPI-FT.cpp:281-289: alive messages are answered with the same tag, others are not. *)
Definition answerStatus (p : Z) (m : msg) : list msg :=
  match mContent m with
  | Status MAlive | Status MAliveNB => [Msg p (mFrom m) (mTag m) (Status MRevoked)]
  | _ => []
  end.
(** MPI-FT.cpp:311-318. *)
Definition answerReduction (p : Z) (m : msg) : list msg := [Msg p (mFrom m) deadTag NextRevoked].

(** MPI-FT.cpp:272-320 at process [p]; [i] and [j]: what the two probes find (beyond the end: nothing). Result: what is on the way, and what was
    sent. *)
Definition backgroundRevoked (p : Z) (i j : nat) (net : list msg) : list msg * list msg :=
  let '(net1, out1) := match takeNth (isStatusTo p) i net with None => (net, []) | Some (m, rest) => (rest, answerStatus p m) end in
  let '(net2, out2) := match takeNth (isReductionTo p) j net1 with None => (net1, []) | Some (m, rest) => (rest, answerReduction p m) end in
  (net2 ++ out1 ++ out2, out1 ++ out2).

(** Calls at MPI-FT.cpp:272-320 of the processes that know that the communicator is revoked, and messages sent by anything else. *)
Inductive bgEvent := Background (p : Z) (i j : nat) | Post (m : msg).
(** MPI-FT.cpp:272-320, any sequence of calls. Result: what is on the way, and what the calls sent. *)
Fixpoint runBackground (events : list bgEvent) (net : list msg) : list msg * list msg :=
  match events with
  | [] => (net, [])
  | Background p i j :: rest => let '(net1, out) := backgroundRevoked p i j net in let '(net2, log) := runBackground rest net1 in (net2, out ++ log)
  | Post m :: rest => runBackground rest (net ++ [m])
  end.
