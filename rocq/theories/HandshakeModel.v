(** Model of the blocking messages of the fault simulator between two processes: src/mpi_fault_simulator/Sim_FT_send.cpp, Sim_FT_recv.cpp
    (with a given source), Sim_FT_probe.cpp, and the answers of a dead process (MPI-FT.cpp:404-422). The communicator is not revoked; a
    process is dead from the start of its call or not at all (Sim_FT_decide_kill is called at the start of calls only). A loop that polls is
    a step that is not possible yet; background operations have no effect on these messages (they answer if the communicator is revoked
    only, MPI-FT.cpp:272-281). Messages of the real MPI are buffered and keep their order. *)
From Verif Require Import Base SimTestModel.
Open Scope Z_scope.

(** MPI-FT.h:62-69. *)
Inductive hmsg := HAlive | HDead | HProbe.
Definition tagOffsetAlive : Z := 10000.

(** Where the sender is: Sim_FT_send.cpp:26-29, 31-58, 62, after the return (with the code and whether the partner was inserted into
    dead_set), or dead. *)
Inductive senderAt := SBegin | SLoop | SReal | SEnd (c : code) (learned : bool) | SDead.
(** Where the receiver is: Sim_FT_probe.cpp:11-16, 18-27, then Sim_FT_recv.cpp:59-61, 63-73, 76-82, after the return (with the code, what
    was received and whether the partner was inserted into dead_set), or dead. *)
Inductive receiverAt := RProbe | RProbeWait | RBegin | RLoop | RReal | REnd (c : code) (data : option (list Z)) (learned : bool) | RDead.

(** Both processes and the messages under way with their tags: on c_comm_copy_p2p in both directions, on c_comm_copy_probe, on c_comm. *)
Record handshake := Handshake { hS : senderAt; hR : receiverAt; toR : list (Z * hmsg); toS : list (Z * hmsg);
                                hCounts : list (Z * Z); hData : list (Z * list Z) }.

(** MPI_Iprobe and MPI_Recv with a tag: the first message with it and the others. *)
Fixpoint takeTag {A} (tag : Z) (l : list (Z * A)) : option (A * list (Z * A)) :=
  match l with
  | [] => None
  | (t, m) :: l' => if t =? tag then Some (m, l') else match takeTag tag l' with Some (x, r) => Some (x, (t, m) :: r) | None => None end
  end.

(** MPI-FT.cpp:408-421: the answer of a dead process to the first message, with the same tag. *)
Definition deadAnswer (inbox outbox : list (Z * hmsg)) : option (list (Z * hmsg) * list (Z * hmsg)) :=
  match inbox with
  | [] => None
  | (t, HAlive) :: rest => Some (rest, outbox ++ [(t, HDead)])
  | _ :: rest => Some (rest, outbox)
  end.

(** Sim_FT_send.cpp:6-78 with the tag and the values of the call; [None] if no step is possible. *)
Definition senderStep (tag : Z) (v : list Z) (h : handshake) : option handshake :=
  match hS h with
  | SBegin => Some (Handshake SLoop (hR h) (toR h ++ [(tag + tagOffsetAlive, HAlive)]) (toS h) (hCounts h) (hData h))
  | SLoop =>
      match takeTag (tag + tagOffsetAlive) (toS h) with
      | None => None
      | Some (HProbe, r) => Some (Handshake SLoop (hR h) (toR h) r (hCounts h ++ [(tag, Z.of_nat (length v))]) (hData h))
      | Some (HAlive, r) => Some (Handshake SReal (hR h) (toR h) r (hCounts h) (hData h))
      | Some (HDead, r) => Some (Handshake (SEnd CFailed true) (hR h) (toR h) r (hCounts h) (hData h))
      end
  | SReal => Some (Handshake (SEnd CSuccess false) (hR h) (toR h) (toS h) (hCounts h) (hData h ++ [(tag, v)]))
  | SEnd _ _ => None
  | SDead => match deadAnswer (toS h) (toR h) with Some (i, o) => Some (Handshake SDead (hR h) o i (hCounts h) (hData h)) | None => None end
  end.

(** Sim_FT_probe.cpp:6-39 and then Sim_FT_recv.cpp:6-97 with a given source. *)
Definition receiverStep (tag : Z) (h : handshake) : option handshake :=
  match hR h with
  | RProbe => Some (Handshake (hS h) RProbeWait (toR h) (toS h ++ [(tag, HProbe)]) (hCounts h) (hData h))
  | RProbeWait =>
      match takeTag tag (hCounts h) with
      | None => None
      | Some (_, r) => Some (Handshake (hS h) RBegin (toR h) (toS h) r (hData h))
      end
  | RBegin => Some (Handshake (hS h) RLoop (toR h) (toS h ++ [(tag + tagOffsetAlive, HAlive)]) (hCounts h) (hData h))
  | RLoop =>
      match takeTag (tag + tagOffsetAlive) (toR h) with
      | None => None
      | Some (HAlive, r) => Some (Handshake (hS h) RReal r (toS h) (hCounts h) (hData h))
      | Some (_, r) => Some (Handshake (hS h) (REnd CFailed None true) r (toS h) (hCounts h) (hData h))
      end
  | RReal =>
      match takeTag tag (hData h) with
      | None => None
      | Some (v, r) => Some (Handshake (hS h) (REnd CSuccess (Some v) false) (toR h) (toS h) (hCounts h) r)
      end
  | REnd _ _ _ => None
  | RDead => match deadAnswer (toR h) (toS h) with Some (i, o) => Some (Handshake (hS h) RDead i o (hCounts h) (hData h)) | None => None end
  end.

(** One step of the process the schedule names, [true] for the sender; nothing happens if it has to wait. *)
Definition handStep (tag : Z) (v : list Z) (h : handshake) (sender : bool) : handshake :=
  match (if sender then senderStep tag v h else receiverStep tag h) with Some h' => h' | None => h end.
Definition handRun (tag : Z) (v : list Z) (s : senderAt) (r : receiverAt) (schedule : list bool) : handshake :=
  fold_left (handStep tag v) schedule (Handshake s r [] [] [] []).
(** No process can do a step. *)
Definition stuck (tag : Z) (v : list Z) (h : handshake) : Prop := senderStep tag v h = None /\ receiverStep tag h = None.
