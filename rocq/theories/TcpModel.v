(** Model of the combination of two systems over the network, in the variant sparseGridReduce: in every system all groups sum their
    tasks, the processes of the third level group give their sums to their manager, the managers exchange and add them through the
    third level manager (ThirdLevelModel), and the results go back to the third level group and from there to all groups
    (src/manager/ProcessManager.hpp:505-526, 653-695, ProcessGroupManager.cpp:248-330, 376-490, ProcessGroupWorker.cpp:475-488,
    734-792, 911-950, 1003-1022). All of the third level group's processes are modelled, each with the processes of the other groups that
    have the same rank in their group. There is one grid per task (several throw, SparseGridWorker.hpp:690-692). Both systems have
    the same sparse grid levels and decomposition. Each call of both managers is an execution of the network of its own; that
    the calls can follow each other is C42. MPI between the managers and their groups by specification. Not modelled: the status
    messages between manager and groups, statistics. *)
From Verif Require Import Base Hier1dModel SparseGridModel CombineModel ReduceModel CombiStepModel ExchangeModel ThirdLevelModel WideModel.
From Coq Require Import QArith Qcanon Relations.
Open Scope Z_scope.

(** A process of the third level group: the processes of all groups with its rank in their group, and its extra sparse grid, if
    there is one (extraUniDSGVector_, SparseGridWorker.hpp:1086-1116). *)
Record TProc := { tGroups : list Group; tExtra : option DSG }.
(** A system: which group is the third level group (CombiParameters::getThirdLevelPG), its processes, and the number of values the manager expects from
    each (dsguDataSizePerWorker_, ProcessGroupManager.cpp:315-323). *)
Record TSys := { tThird : nat; tProcs : list TProc; tCounts : list Z }.

(** One call on both managers: the messages of the three programs in some order, until all are done. *)
Definition netStep : net -> net -> Prop := anyStep (nextS (fun _ d => d) (fun _ d => d)) (nextS (fun _ d => d) (fun _ d => d)).
Definition exchanged (r : round) (d1 d2 e1 e2 : sysData) : Prop :=
  exists s, clos_refl_trans net netStep (startNet [r] d1 d2) s /\ sys1 s = SDone e1 /\ sys2 s = SDone e2.

(** ** Agreeing on the sizes *)

(** CombiCom.hpp:492-506 and ProcessGroupManager.cpp:423-464, collectSubspaceSizes: the sizes of the combined sparse grid of all
    processes of the third level group, one after the other. *)
Definition collectSizes (third : nat) (ps : list (list Group)) : list (list Z) := map (fun gs => dSizes (groupDsg gs third)) ps.
(** ProcessGroupManager.cpp:468-495, distributeSubspaceSizes. *)
Fixpoint scatter (counts : list nat) (l : list Z) : list (list Z) :=
  match counts with [] => [] | c :: counts' => firstn c l :: scatter counts' (skipn c l) end.

(** ProcessManager.hpp:680-692, unifySubspaceSizesThirdLevel: both totals are added in int. [false]: an exception. *)
Definition accumulateInts (sizes : list Z) : Z := fold_left (fun acc s => i32 (acc + s)) sizes 0.
Definition sizesCheck (extra : bool) (former new : list Z) : bool :=
  if extra then accumulateInts new <=? accumulateInts former else accumulateInts former <=? accumulateInts new.

(** ProcessGroupWorker.cpp:911-950, reduceSubspaceSizesThirdLevel and waitForThirdLevelSizeUpdate on one process: with an extra
    sparse grid (SparseGridWorker.hpp:688-698 and 1086-1116) only that gets the sizes, and the other groups have nothing to do. Otherwise the
    sizes are broadcast to all groups (CombiCom.hpp:474-487). *)
Definition setSizes (extra : bool) (esz : Z) (n third : nat) (s : list Z) (gs : list Group) : TProc :=
  if extra
  then {| tGroups := mapDsgs (fun r d => if Nat.eqb r third then zeroDsgData esz d else d) gs;
          tExtra := Some (zeroDsgData esz (overwriteSizesAndDelete s (createKahanBuffer esz (initDSG n)))) |}
  else {| tGroups := mapDsgs (fun _ d => zeroDsgData esz (overwriteSizesAndDelete s d)) gs; tExtra := None |}.

(** ProcessGroupManager.cpp:288-296 and 312-325: after the exchange; [None]: an exception. *)
Definition sizesReceived (extra : bool) (esz : Z) (n third : nat) (ps : list (list Group)) (new : list Z) : option TSys :=
  let own := collectSizes third ps in
  let counts := map (@length Z) own in
  if sizesCheck extra (sizesPerWorker counts (concat own)) (sizesPerWorker counts new)
  then Some {| tThird := third; tProcs := map (fun sg => setSizes extra esz n third (fst sg) (snd sg)) (combine (scatter counts new) ps);
               tCounts := sizesPerWorker counts new |}
  else None.

(** The groups of both systems agree on their sizes (SparseGridWorker.hpp:708-746), then both managers call
    unifySubspaceSizesThirdLevel. [ts1], [ts2]: for each process and each group the tasks. *)
Definition startTcp (esz : Z) (levels : list (list Z)) (extra : bool) (third1 third2 : nat) (ts1 ts2 : list (list (list Comp))) (S1 S2 : TSys) : Prop :=
  exists ps1 ps2 e1 e2, mapO (initGroups VSparseGrid esz levels) ts1 = Some ps1 /\ mapO (initGroups VSparseGrid esz levels) ts2 = Some ps2 /\
    exchanged (RUnify extra) {| blocks := []; sizes := concat (collectSizes third1 ps1) |} {| blocks := []; sizes := concat (collectSizes third2 ps2) |} e1 e2 /\
    sizesReceived extra esz (length levels) third1 ps1 (sizes e1) = Some S1 /\ sizesReceived extra esz (length levels) third2 ps2 (sizes e2) = Some S2.

(** ** The combination *)

(** SparseGridWorker.hpp:999-1029, reduceLocalAndGlobal without a collecting rank: all groups get the sums. *)
Definition reduceGroups (esz chunkSize : Z) (levels : list (list Z)) (gs : list Group) : option (list Group) :=
  let gs := mapDsgs (fun _ d => zeroDsgData esz d) gs in
  match mapO (fun g => addAll true levels (gTasks g) (gDsg g)) gs with
  | None => None
  | Some ds => match sparseGridReduce (length gs) chunkSize (dsgAt ds) with
               | None => None
               | Some ds' => Some (mapDsgs (fun r _ => ds' r) gs)
               end
  end.
(** ProcessGroupWorker.cpp:475-488 and 747-761: until the data is sent to the manager. *)
Definition prepareProc (esz chunkSize : Z) (levels : list (list Z)) (third : nat) (p : TProc) : option TProc :=
  match reduceGroups esz chunkSize levels (tGroups p) with
  | None => None
  | Some gs => Some {| tGroups := gs; tExtra := option_map (fun e => copyDataFrom (groupDsg gs third) (zeroDsgData esz e)) (tExtra p) |}
  end.
Definition prepareSys (esz chunkSize : Z) (levels : list (list Z)) (S : TSys) : option TSys :=
  match mapO (prepareProc esz chunkSize levels (tThird S)) (tProcs S) with
  | None => None
  | Some ps => Some {| tThird := tThird S; tProcs := ps; tCounts := tCounts S |}
  end.

(** The values a process sends (CombiCom.hpp:533-546); [None]: the manager expects another number of values (ProcessGroupManager.cpp:397-405). *)
Definition sentDsg (third : nat) (p : TProc) : DSG := match tExtra p with Some e => e | None => groupDsg (tGroups p) third end.
Definition blocksToSend (S : TSys) : option (list (list Qc)) :=
  let bs := map (fun p => rawValues (sentDsg (tThird S) p)) (tProcs S) in
  if list_eq_dec Z.eq_dec (map (fun b => Z.of_nat (length b)) bs) (tCounts S) then Some bs else None.

(** ProcessGroupWorker.cpp:763-784 and 1003-1022: the values [vals] come back, are copied from the extra sparse grid, broadcast to
    the other groups, and extracted. *)
Definition receiveProc (third : nat) (vals : list Qc) (p : TProc) : TProc :=
  match tExtra p with
  | Some e => let e := withRaw vals e in
              {| tGroups := mapDsgs (fun r d => if Nat.eqb r third then copyDataFrom e d else d) (tGroups p); tExtra := Some e |}
  | None => {| tGroups := mapDsgs (fun r d => if Nat.eqb r third then withRaw vals d else d) (tGroups p); tExtra := None |}
  end.
Definition endProc (levels : list (list Z)) (third : nat) (p : TProc) : option TProc :=
  match broadcastOut third (tGroups p) with
  | None => None
  | Some gs => match mapO (fun g => distribute true levels (gDsg g) g) gs with
               | None => None
               | Some gs' => Some {| tGroups := gs'; tExtra := tExtra p |}
               end
  end.
Definition receiveSys (levels : list (list Z)) (bs : list (list Qc)) (S : TSys) : option TSys :=
  match mapO (fun vp => endProc levels (tThird S) (receiveProc (tThird S) (fst vp) (snd vp))) (combine bs (tProcs S)) with
  | None => None
  | Some ps => Some {| tThird := tThird S; tProcs := ps; tCounts := tCounts S |}
  end.

(** ProcessManager.hpp:505-526 on both managers (between hierarchization and dehierarchization). *)
Definition combineTcp (esz : Z) (levels : list (list Z)) (chunk1 chunk2 : Z) (S1 S2 S1' S2' : TSys) : Prop :=
  exists R1 R2 b1 b2 e1 e2, prepareSys esz chunk1 levels S1 = Some R1 /\ prepareSys esz chunk2 levels S2 = Some R2 /\
    blocksToSend R1 = Some b1 /\ blocksToSend R2 = Some b2 /\
    exchanged RCombine {| blocks := b1; sizes := [] |} {| blocks := b2; sizes := [] |} e1 e2 /\
    receiveSys levels (blocks e1) R1 = Some S1' /\ receiveSys levels (blocks e2) R2 = Some S2'.
