(** Model of the recovery of the communicators after processes have failed, MPISystem::recoverCommunicators (MPISystem.cpp:717-880) with
    waitForReuse (622-689) and the functions that send and receive ranks (483-620). It is called by the manager (ProcessManager.cpp:300-340), by the
    workers of the other groups (ProcessGroupWorker.cpp:289-292) and by the processes that are left of a failed group (429-437).
    A process is a number that never changes; a communicator is the list of its members in the order of their ranks. MPI_Comm_shrink
    (MPI-FT_ULFM.cpp:11-23) keeps the order of the living members. The order in which the manager receives messages of one tag from
    MPI_ANY_SOURCE is a parameter. Freeing of communicators is not modelled. *)
From Verif Require Import Base RankModel.
Open Scope Z_scope.

(** The rank of a process in a communicator. *)
Fixpoint pos (l : list Z) (p : Z) : Z := match l with [] => 0 | x :: l' => if x =? p then 0 else 1 + pos l' p end.
Definition at_ (l : list Z) (r : Z) : Z := nth (Z.to_nat r) l 0.
Definition isIn (p : Z) (l : list Z) : bool := existsb (Z.eqb p) l.
Definition zlen (l : list Z) : Z := Z.of_nat (length l).

(** MPISystem.hpp:520-600: spareCommFT_ (all living processes), worldComm_ (the processes of the groups, then the manager), worldRank_ of every
    process, localComm_ of every process, and of the manager reusableRanks_ (ranks in the spare communicator) and the ranks pgroupRootID_ of the
    groups in the list pgroups_ (ProcessManager.hpp, ProcessGroupManager.hpp). ngroup_ is [(|world| - 1) / nprocs] (850-852). *)
Record ftState := FT { fSpare : list Z; fWorld : list Z; fRank : Z -> Z; fLocal : Z -> list Z; fReusable : list Z; fMasters : list Z }.

(** 65-109, initSystemConstants with ENABLE_FT: the spare communicator is a copy of the world communicator; 251-260: the local communicators.
    ProcessManager: group i has its master at rank i of the global communicator. *)
Definition ftInit (ngroup nprocs : Z) : ftState :=
  let n := ngroup * nprocs + 1 in
  FT (zrange 0 n) (zrange 0 n) (fun p => p) (fun p => localComm nprocs n (p / nprocs)) [] (zrange 0 ngroup).

(** The processes of the group with number [g]; a group has failed if one of its processes is dead (then status_ of the others is
    PROCESS_GROUP_FAIL). *)
Definition block (nprocs : Z) (world : list Z) (g : Z) : list Z := firstn (Z.to_nat nprocs) (skipn (Z.to_nat (g * nprocs)) world).
Definition groupFailed (nprocs : Z) (dead : Z -> bool) (world : list Z) (g : Z) : bool := existsb dead (block nprocs world g).
Definition numGroups (nprocs : Z) (world : list Z) : Z := (zlen world - 1) / nprocs.
Definition failedGroupIDs (nprocs : Z) (dead : Z -> bool) (world : list Z) : list Z :=
  filter (groupFailed nprocs dead world) (zrange 0 (numGroups nprocs world)).
(** The argument groupAlive on process [p]: true for the manager. *)
Definition groupAlive (nprocs : Z) (dead : Z -> bool) (world : list Z) (p : Z) : bool :=
  (pos world p =? zlen world - 1) || negb (groupFailed nprocs dead world (pos world p / nprocs)).

(** The order in which the messages of the manager's four receive loops arrive. *)
Record arrival := Arrival { arrFailed : list Z -> list Z; arrReusable : list Z -> list Z; arrSpare : list Z -> list Z; arrNew : list Z -> list Z }.

(** [count] receives of a loop of the manager: [None] if it is not the number of messages (a receive that waits forever, or a message that
    is left over). *)
Definition receiveAll (count : Z) (sent received : list Z) : option (list Z) := if count =? zlen sent then Some received else None.

(** 523-555, sendRankIds: the process with rank [reusable[i]] in the spare communicator gets the world rank [failed[i]]. *)
Fixpoint newRank (failed reusable : list Z) (r : Z) : option Z :=
  match failed, reusable with f :: fs, x :: xs => if x =? r then Some f else newRank fs xs r | _, _ => None end.

(** recoverCommunicators: the new state and failedRecovery of the manager; [None] if a process waits forever or an assertion fails. *)
Definition recoverCommunicators (nprocs : Z) (dead : Z -> bool) (numFailedGroups : Z) (o : arrival) (s : ftState) : option (ftState * bool) :=
  let world := fWorld s in
  let alive p := negb (dead p) in
  (* 735-746, 664-687: all living processes, and their manager *)
  let spare := filter alive (fSpare s) in
  let sizeNew := zlen (filter alive world) in                                        (* 749-753 *)
  let left := filter (fun p => alive p && negb (groupAlive nprocs dead world p)) world in   (* what is left of the failed groups *)
  let spares := filter (fun p => negb (isIn p world)) spare in                       (* in waitForReuse *)
  let numFailedRanks := zlen world - sizeNew in                                      (* 757-765 *)
  let sentFailed := map (fRank s) (filter dead world) in                             (* 602-606 *)
  let sentReusable := map (fRank s) left in                                          (* 591-595, 808 *)
  let sentSpare := map (pos spare) spares in                                         (* 684-686 *)
  let sentNew := map (pos spare) left in                                             (* 816-818 *)
  match receiveAll numFailedRanks sentFailed (arrFailed o sentFailed),
        receiveAll (numFailedGroups * nprocs - numFailedRanks) sentReusable (arrReusable o sentReusable),
        receiveAll (zlen (fReusable s)) sentSpare (arrSpare o sentSpare) with
  | Some failedRanks, Some newReusable, Some reusable =>
    let enoughSpareProcs := numFailedRanks <=? zlen spare - sizeNew in               (* 773 *)
    let failedRecovery := negb enoughSpareProcs in
    let assigned := if enoughSpareProcs then firstn (length failedRanks) reusable else [] in
    let excluded := if enoughSpareProcs then skipn (length failedRanks) reusable else reusable in   (* 553, 799 *)
    let isNew r := match newRank failedRanks assigned r with Some _ => true | None => false end in
    (* 796: the receivers of the recovery status *)
    let told p := isIn (fRank s p) newReusable in
    (* 799, 644-657, 805-838: the colour of the process with rank r in the spare communicator, None: MPI_UNDEFINED, and its key *)
    let rank r := if isIn (at_ spare r) world then fRank s (at_ spare r)
                  else match newRank failedRanks assigned r with Some f => f | None => r end in
    let color r :=
      if isIn (at_ spare r) world
      then if groupAlive nprocs dead world (at_ spare r) then Some 1 else if failedRecovery then None else Some 1
      else if isNew r then Some 1 else None in
    (* every process takes part: the other processes in waitForReuse get the exclude signal, those of failed groups the status *)
    if forallb (fun r => isIn (at_ spare r) world || isNew r || isIn r excluded) (zrange 0 (zlen spare)) && forallb told left
       (* 732: the shrink signal reaches all processes in waitForReuse; 745, 681: managerRankFT_ is the manager *)
       && forallb (fun p => isIn (pos (fSpare s) p) (fReusable s)) spares && (at_ spare (zlen spare - 1) =? at_ world (zlen world - 1))
    then
      let newWorld := commSplit spare color rank 1 in                                (* 845-849 *)
      if (zlen newWorld - 1) mod nprocs =? 0 then                                    (* 851 *)
        (* 854; 683, 815: the rank in the spare communicator of those outside *)
        let newRanks p := if isIn p newWorld then pos newWorld p else pos spare p in
        (* 860-870: initLocalComm of the processes that were not in a living group, the others give MPI_UNDEFINED *)
        let joins p := negb (isIn p world && groupAlive nprocs dead world p) in
        let newLocal p := if joins p && isIn p newWorld
                          then commSplit newWorld (fun r => if joins (at_ newWorld r) then localColor nprocs r else None) (localKey nprocs)
                                 (newRanks p / nprocs)
                          else fLocal s p in
        match (if failedRecovery then receiveAll (zlen newReusable) sentNew (arrNew o sentNew) else Some []) with   (* 800-804 *)
        | Some added =>
          (* ProcessManager.cpp:322-337 *)
          let masters := if failedRecovery
                         then zrange 0 (Z.of_nat (length (filter (fun g => negb (groupFailed nprocs dead world g)) (zrange 0 (zlen (fMasters s))))))
                         else fMasters s in
          Some (FT spare newWorld newRanks newLocal (excluded ++ added) masters, failedRecovery)
        | None => None
        end
      else None
    else None
  | _, _, _ => None
  end.

(** A failure of processes in the groups (not of the manager), noticed by the manager, and the recovery. ProcessManager.cpp:303-306: not all
    groups have failed. Only processes that run tasks fail (GeneTask.cpp:137-160, decideToKill). *)
Definition isOrder (f : list Z -> list Z) : Prop := forall l, Permutation (f l) l.
Definition validOrder (o : arrival) : Prop := isOrder (arrFailed o) /\ isOrder (arrReusable o) /\ isOrder (arrSpare o) /\ isOrder (arrNew o).
Definition failure (nprocs : Z) (dead : Z -> bool) (s : ftState) : Prop :=
  (forall p, dead p = true -> In p (fWorld s) /\ pos (fWorld s) p <> zlen (fWorld s) - 1) /\
  zlen (failedGroupIDs nprocs dead (fWorld s)) < numGroups nprocs (fWorld s).
Definition recover (nprocs : Z) (dead : Z -> bool) (o : arrival) (s : ftState) : option (ftState * bool) :=
  recoverCommunicators nprocs dead (zlen (failedGroupIDs nprocs dead (fWorld s))) o s.
Inductive ftReachable (ngroup nprocs : Z) : ftState -> Prop :=
| ft_init : ftReachable ngroup nprocs (ftInit ngroup nprocs)
| ft_recover : forall s dead o s' b, ftReachable ngroup nprocs s -> failure nprocs dead s -> validOrder o ->
    recover nprocs dead o s = Some (s', b) -> ftReachable ngroup nprocs s'.
