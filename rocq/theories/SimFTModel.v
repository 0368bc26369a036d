(** Model of the detection of dead processes in the fault simulator, src/mpi_fault_simulator/MPI-FT.cpp: the tree over the processes of a
    communicator (1390-1432), the reduction towards its root (1183-1388), the broadcast from it (1096-1181), and what the processes make of it
    (Sim_FT_Check_dead_processes, 37-185; Sim_FT_kill_me for dead processes, 854-1079). A dead process goes on to forward messages.
    One check in a communicator that is not revoked is modelled; messages of the background operations are not. *)
From Verif Require Import Base.
Open Scope Z_scope.

(** ** The tree *)
(** MPI-FT.cpp:1420-1432; MPI-FT.h:23 is [k] = 6. int is modelled by Z. *)
Definition convertId (id treeSize : Z) : Z := if id >=? treeSize then id - treeSize else if id <? 0 then treeSize + id else id.
Definition normalizeId (id root : Z) : Z := id - root.
Definition deNormalizeId (id root : Z) : Z := id + root.
(** MPI-FT.cpp:1390-1407, Bcast_Get_Successors. *)
Definition successors (root node n : Z) (k : nat) : list Z :=
  flat_map (fun i => let normalized := convertId (normalizeId node root) n * Z.of_nat k + Z.of_nat i + 1 in
                     if normalized <? n then [convertId (deNormalizeId normalized root) n] else []) (seq 0 k).
(** MPI-FT.cpp:1409-1418, Bcast_Get_Predecessor; the division and the remainder of C++ truncate. *)
Definition predecessor (root node n : Z) (k : nat) : Z :=
  let normalized := convertId (normalizeId node root) n in
  deNormalizeId (Z.quot (normalized - 1 - Z.rem (normalized - 1) (Z.of_nat k)) (Z.of_nat k)) root.

(** ** The reduction *)
(** MPI-FT.cpp:1200: number of dead processes; largest number of non-blocking collectives, and a rank with it; the next operation. *)
Record reduceVec := RV { rDead : Z; rNBC : Z; rRank : Z; rOp : Z }.
(** A process: dead or not, number of its non-blocking collectives, and the operation it calls (MPI-FT.h:25-44; not used if dead). *)
Record simProc := SP { isDead : bool; numNBC : Z; nextOp : Z }.
(** MPI-FT.cpp:1183-1198, customReduceOp. The assignment in the last branch changes the received vector, which is not used again. *)
Definition reduceOp (inout inn : reduceVec) : reduceVec :=
  let upd := rNBC inout <? rNBC inn in
  RV (rDead inout + rDead inn) (if upd then rNBC inn else rNBC inout) (if upd then rRank inn else rRank inout)
     (if rOp inout =? 0 then rOp inn else rOp inout).
(** MPI-FT.cpp:1219-1224 (alive), 867-871 and 1381-1384 (dead). *)
Definition startVec (p : simProc) (r : Z) : reduceVec := RV 0 (numNBC p) r (if isDead p then 0 else nextOp p).
(** MPI-FT.cpp:1348-1350: a dead process counts itself. *)
Definition finishVec (p : simProc) (v : reduceVec) : reduceVec := if isDead p then RV (rDead v + 1) (rNBC v) (rRank v) (rOp v) else v.

Section Tree.
Variable root n : Z.
Variable k : nat.
Variable procs : Z -> simProc.
(** MPI-FT.cpp:1241-1282 (alive), 1313-1362 (dead): a process receives from its successors in any order, each message was sent to its sender's
    predecessor; [reduces r v]: process [r] gets to its end and has vector [v], which it sends to its predecessor unless it is the root. *)
Inductive reduces : Z -> reduceVec -> Prop :=
| R_proc : forall r order v, Permutation order (successors root r n k) -> collects r order (startVec (procs r) r) v -> reduces r (finishVec (procs r) v)
with collects : Z -> list Z -> reduceVec -> reduceVec -> Prop :=
| C_nil : forall r a, collects r [] a a
| C_cons : forall r s l a v w, reduces s v -> predecessor root s n k = r -> collects r l (reduceOp a v) w -> collects r (s :: l) a w.

(** MPI-FT.cpp:1103-1113 and 1122-1148: a process that has the message of the root sends it to its successors; these receive from their
    predecessor only. *)
Inductive delivered {A : Type} (m : A) : Z -> A -> Prop :=
| D_root : delivered m root m
| D_next : forall r s x, delivered m r x -> In s (successors root r n k) -> predecessor root s n k = r -> delivered m s x.
End Tree.

(** ** The root's message and what the processes do with it *)
(** MPI-FT.h:25-44, 110-115: Comm_free is 3; MPI_ERR_PROC_FAILED and MPI_ERR_REVOKED are 54 and 55. *)
Definition commFree : Z := 3.
Definition errProcFailed : Z := 54.
Definition errRevoked : Z := 55.
(** MPI-FT.cpp:88-103, 120-126 (alive root: its own operation), 1012-1022 (dead root: the operation of the reduction). *)
Definition rootMessage (p : simProc) (v : reduceVec) (dead nbc : list Z) : list Z :=
  let op := if isDead p then rOp v else nextOp p in
  op :: Z.of_nat (length dead) :: dead ++ (if op =? commFree then nbc else []).
(** What a process knows about a communicator: dead_nodes, Ack_failed_processes, NBC_Vector_Send, comm_revoked. *)
Record commState := CS { deadNodes : list Z; acked : bool; nbcVector : list Z; revoked : bool }.
(** MPI-FT.cpp:145-178, an alive process that is not the root; [None]: the message has no second entry. *)
Definition handleMessage (c : commState) (b : list Z) : option (Z * commState) :=
  match b with
  | op :: cnt :: rest =>
    let new := (cnt >? 0) && negb (cnt =? Z.of_nat (length (deadNodes c))) in
    let isRevoked := op =? 9 in
    Some ((if isRevoked then errRevoked else if cnt >? 0 then errProcFailed else 0),
      CS (if new then firstn (Z.to_nat cnt) rest else deadNodes c) (if new then false else acked c)
         (if Z.of_nat (length b) >? cnt + 2 then skipn (Z.to_nat cnt) rest else nbcVector c) (revoked c || isRevoked))
  | _ => None
  end.
(** MPI-FT.cpp:92-138, the alive root with operation [op]. *)
Definition handleRoot (c : commState) (op : Z) (dead : list Z) : Z * commState :=
  if (0 <? Z.of_nat (length dead)) then
    (errProcFailed, if Nat.eqb (length dead) (length (deadNodes c)) then c else CS dead false (nbcVector c) (revoked c))
  else ((if op =? 1 then 1 else 0), c).

(** ** Non-blocking collectives as a vector: MPI-FT.cpp:1478-1512, with the members that are serialized. *)
Record istats := IS { iType : Z; iCount : Z; iDatatype : Z; iRoot : Z; iOp : Z }.
Definition nbcToVector (l : list istats) : list Z := flat_map (fun s => [iType s; iCount s; iDatatype s; iRoot s; iOp s]) l.
(** [None]: reads beyond the end. *)
Fixpoint vectorToNBC (v : list Z) : option (list istats) :=
  match v with
  | [] => Some []
  | a :: b :: c :: d :: e :: v' => option_map (cons (IS a b c d e)) (vectorToNBC v')
  | _ => None
  end.

(** ** MPI-FT_ULFM.cpp:55-78, MPI_Comm_agree on an alive process, whose Last_Send_Vector is empty: it is only assigned in MPI-FT.cpp:1352, by dead
    processes. [None]: reads beyond the end. *)
Definition agreedFlag (lastSendVector : list Z) : option Z := option_map (fun x => if x =? 4 then 0 else 1) (nth_error lastSendVector 0).
