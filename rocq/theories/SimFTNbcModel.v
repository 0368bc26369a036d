(** Model of the completion of non-blocking collectives before a communicator is freed in the fault simulator
    (src/mpi_fault_simulator/Sim_FT_comm_free.cpp:5-54, MPI-FT.cpp:494-618, Sim_FT_ibarrier.cpp, Sim_FT_ibcast.cpp, Sim_FT_iallreduce.cpp), and of its
    bit flips (MPI-FT_bitflips.cpp). *)
From Verif Require Import Base SimFTModel.
Open Scope Z_scope.

(** ** Non-blocking collectives *)
(** MPI datatypes and operations, those that the simulator knows and others. *)
Inductive mpiType := TChar | TInt | TDouble | TOther (id : Z).
Inductive mpiOp := OMin | OMax | OSum | OOther (id : Z).
(** A call of MPI_Ibarrier, MPI_Ibcast or MPI_Iallreduce on the communicator (without its buffers). *)
Inductive coll := IBarrier | IBcast (count : Z) (t : mpiType) (root : Z) | IAllreduce (count : Z) (t : mpiType) (op : mpiOp).
(** MPI-FT.cpp:1434-1443 and 1456-1465. *)
Definition dtypeOf (t : mpiType) : Z := match t with TChar => 0 | TInt => 1 | TDouble => 2 | TOther _ => 1 end.
Definition opCode (o : mpiOp) : Z := match o with OMin => 0 | OMax => 1 | OSum => 2 | OOther _ => 0 end.
(** Sim_FT_ibarrier.cpp:12-17, Sim_FT_ibcast.cpp:13-24, Sim_FT_iallreduce.cpp:14-24, which does not store
    the count; the members are -1 at first (MPI-FT.h:131-139). *)
Definition recordOf (c : coll) : istats :=
  match c with
  | IBarrier => IS 0 (-1) (-1) (-1) (-1)
  | IBcast count t root => IS 1 count (dtypeOf t) root (-1)
  | IAllreduce _ t op => IS 2 (-1) (dtypeOf t) (-1) (opCode op)
  end.
(** MPI-FT.cpp:507-614: the call that is made for a recorded collective, with a buffer of its own. [None]: the program ends, by exit or since no
    buffer of negative size can be made (that of size 0 is passed as any address). MPI-FT.cpp:1467-1476 for the operation. *)
Definition typeOf (d : Z) : option mpiType := if d =? 0 then Some TChar else if d =? 1 then Some TInt else if d =? 2 then Some TDouble else None.
Definition opOf (o : Z) : mpiOp := if o =? 1 then OMax else if o =? 2 then OSum else OMin.
Definition performOne (s : istats) : option coll :=
  if iType s =? 0 then Some IBarrier
  else if iType s =? 1 then (if iCount s <? 0 then None else option_map (fun t => IBcast (iCount s) t (iRoot s)) (typeOf (iDatatype s)))
  else if iType s =? 2 then (if iCount s <? 0 then None else option_map (fun t => IAllreduce (iCount s) t (opOf (iOp s))) (typeOf (iDatatype s)))
  else None.
(** MPI-FT.cpp:497-503: those that the process has not called itself, after its own. *)
Fixpoint performAll (l : list istats) : option (list coll) :=
  match l with
  | [] => Some []
  | s :: l' => match performOne s, performAll l' with Some c, Some cs => Some (c :: cs) | _, _ => None end
  end.
Definition performMissing (own : list coll) (vec : list istats) : option (list coll) :=
  if Nat.ltb (length own) (length vec) then option_map (app own) (performAll (skipn (length own) vec)) else Some own.
(** Sim_FT_comm_free.cpp:50-52, MPI-FT.cpp:931-942 and 1049-1052 (dead): the collectives a process has called in the end. *)
Definition completed (own : list coll) (nbc : list Z) : option (list coll) :=
  match vectorToNBC nbc with Some vec => performMissing own vec | None => None end.
(** Sim_FT_comm_free.cpp:13-40, MPI-FT.cpp:246-256: what the root gets from the rank with the most. *)
Definition longestVector (pending : Z -> list coll) (v : reduceVec) : list Z := nbcToVector (map recordOf (pending (rRank v))).

(** ** Bit flips *)
(** The array as ints of 32 bits, seen as numbers from 0 to 2^32 - 1. *)
Definition setNth (l : list Z) (i : nat) (x : Z) : list Z := firstn i l ++ match skipn i l with [] => [] | _ :: r => x :: r end.
(** MPI-FT_bitflips.cpp:64-73, flipBit. *)
Definition flipBit (arr : list Z) (pos : nat) : list Z :=
  setNth arr (pos / 32) (Z.lxor (nth (pos / 32) arr 0) (Z.shiftl 1 (31 - Z.of_nat (pos mod 32)))).
(** MPI-FT_bitflips.cpp:43-46. *)
Definition swapNth (l : list nat) (i j : nat) : list nat :=
  map (fun m => if Nat.eqb m i then nth j l O else if Nat.eqb m j then nth i l O else nth m l O) (seq 0 (length l)).
(** MPI-FT_bitflips.cpp:36-53: [choices] are the random numbers, one for every bit to be flipped. *)
Fixpoint flipLoop (i : nat) (choices bits : list nat) (arr : list Z) : list Z :=
  match choices with
  | [] => arr
  | c :: cs => let bits' := swapNth bits i c in flipLoop (S i) cs bits' (flipBit arr (nth i bits' O))
  end.
(** MPI-FT_bitflips.cpp:10-55, Sim_FT_Manipulate_bits; the number of bits is an int. [None]: it overflows. *)
Definition manipulateBits (arr : list Z) (choices : list nat) : option (list Z) :=
  if 32 * Z.of_nat (length arr) <? 2 ^ 31 then Some (flipLoop 0 choices (seq 0 (32 * length arr)) arr) else None.
(** std::uniform_int_distribution (40-41) gives numbers from i to BitAmount - 1. *)
Fixpoint validChoices (i n : nat) (choices : list nat) : Prop :=
  match choices with [] => True | c :: cs => (i <= c < n)%nat /\ validChoices (S i) n cs end.
