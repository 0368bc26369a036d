(** Model of the combination of several systems ("widely distributed") through files, in the variant sparseGridReduce: every
    system sums its own tasks in its output group, the output groups exchange the subspaces that more than one system has
    through files, and give the sums to all groups of their system (src/manager/ProcessGroupWorker.cpp:491-526, 841-894,
    966-1000, SparseGridWorker.hpp). The model has the processes of one file part: those of the output group of a system that
    share an output communicator, each with the processes of the other groups that have the same rank in their group.
    All systems have the same sparse grid levels and decomposition. Not modelled: the time between the systems (a system reads
    a file of another one after its token was written, so the file is complete; the next combination starts after all
    systems have read), removal of the files, statistics. *)
From Verif Require Import Base Hier1dModel SparseGridModel CombineModel ReduceModel CombiStepModel FileModel ExchangeModel.
From Coq Require Import QArith Qcanon.
Open Scope Z_scope.

(** A process of the output group: the processes of all groups with its rank in their group (one global-reduce communicator), and
    its extra sparse grid (extraUniDSGVector_, SparseGridWorker.hpp:1086-1116). *)
Record Proc := { pGroups : list Group; pExtra : DSG }.

(** Changing the combined sparse grid of each group. *)
Definition withDsg (g : Group) (d : DSG) : Group := {| gTasks := gTasks g; gDsg := d; gComms := gComms g |}.
Definition mapDsgs (f : nat -> DSG -> DSG) (gs : list Group) : list Group :=
  map (fun rg => withDsg (snd rg) (f (fst rg) (gDsg (snd rg)))) (combine (seq 0 (length gs)) gs).
Definition groupDsg (gs : list Group) (r : nat) : DSG := match nth_error gs r with Some g => gDsg g | None => initDSG 0 end.

(** ** Agreeing on the sizes *)

(** SparseGridWorker.hpp:1100-1112, setExtraSparseGrid(true): a new sparse grid with the sizes of the combined one. *)
Definition newExtra (esz : Z) (n : nat) (sizes : list Z) : DSG :=
  fold_left (fun d i => setDataSize i (nth (Z.to_nat i) sizes 0) d) (zrange 0 (Z.of_nat n)) (createKahanBuffer esz (initDSG n)).

(** SparseGridWorker.hpp:786-802, maxReduceSubspaceSizesInOutputGroup, and CombiCom.hpp:446-460: the extra sparse grid gets the
    maxima over the groups; all sparse grids that take part lose their data. *)
Definition maxReduceInOutputGroup (n out : nat) (p : Proc) : Proc :=
  let sizes := fun r => if Nat.eqb r out then dSizes (pExtra p) else dSizes (groupDsg (pGroups p) r) in
  {| pGroups := mapDsgs (fun r d => if Nat.eqb r out then d else deleteSubspaceData d) (pGroups p);
     pExtra := overwriteSizesAndDelete (map (maxSize (length (pGroups p)) sizes) (zrange 0 (Z.of_nat n))) (pExtra p) |}.

(** ProcessGroupWorker.cpp:975-976, after the groups of the system agreed on their sizes. *)
Definition startProc (esz : Z) (levels : list (list Z)) (out : nat) (tasks : list (list Comp)) : option Proc :=
  match initGroups VSparseGrid esz levels tasks with
  | None => None
  | Some gs => let n := length levels in
               Some (maxReduceInOutputGroup n out {| pGroups := gs; pExtra := newExtra esz n (dSizes (groupDsg gs out)) |})
  end.

(** SparseGridWorker.hpp:1032-1038, reduceSubspaceSizesBetweenGroups. *)
Definition betweenGroups (n : nat) (p : Proc) : Proc :=
  let sizes := fun r => dSizes (groupDsg (pGroups p) r) in
  {| pGroups := mapDsgs (fun _ d => overwriteSizesAndDelete (map (maxSize (length (pGroups p)) sizes) (zrange 0 (Z.of_nat n))) d) (pGroups p);
     pExtra := pExtra p |}.
(** SparseGridWorker.hpp:1202-1217, zeroDsgsData. *)
Definition zeroProc (esz : Z) (p : Proc) : Proc :=
  {| pGroups := mapDsgs (fun _ d => zeroDsgData esz d) (pGroups p); pExtra := zeroDsgData esz (pExtra p) |}.

(** SparseGridWorker.hpp:975-995, ProcessGroupWorker.cpp:961-962, 995-998: with the sizes [s] of the extra sparse grid. *)
Definition enlargeProc (esz : Z) (n out : nat) (s : list Z) (p : Proc) : Proc :=
  let e := overwriteSizes s (pExtra p) in
  let gs := mapDsgs (fun r d => if Nat.eqb r out then maxReduceSubspaceSizes (dSizes e) d else d) (pGroups p) in
  let p1 := zeroProc esz (betweenGroups n {| pGroups := gs; pExtra := e |}) in
  zeroProc esz (betweenGroups n p1).

(** ProcessGroupWorker.cpp:966-1000 and SparseGridWorker.hpp:917-996, reduceExtraSubspaceSizes with the files of the other systems. *)
Definition exchangeSizes (esz : Z) (n out : nat) (files : list (option (list Z))) (ps : list Proc) : option (list Proc) :=
  let ps := map (maxReduceInOutputGroup n out) ps in
  match reduceExtraSizes n files (map (fun p => dSizes (pExtra p)) ps) with
  | None => None
  | Some new => Some (map (fun sp => enlargeProc esz n out (fst sp) (snd sp)) (combine new ps))
  end.

(** What differs between the systems: the output group, the chunk sizes (in elements) of the reduction between groups and of
    reading, the order in which the parts of the processes reach the files, and the answers about token files. *)
Record Conf := { fOut : nat; fChunk : Z; fBuffer : nat; fOrder : list nat; fQuery : oracle }.

(** What the systems other than [s] have. *)
Definition others {A : Type} (s : nat) (l : list A) : list A := firstn s l ++ skipn (S s) l.

Definition indexed {A : Type} (l : list A) : list (nat * A) := combine (seq 0 (length l)) l.

(** All systems agree on the sizes. [tasks] has, for each system, each process and each group, the tasks. The files of the
    sizes do not exist before. *)
Definition startWide (esz : Z) (levels : list (list Z)) (conf : nat -> Conf) (tasks : list (list (list (list Comp))))
  : option (list (list Proc)) :=
  match mapO (fun st => mapO (startProc esz levels (fOut (conf (fst st)))) (snd st)) (indexed tasks) with
  | None => None
  | Some ws =>
      let files := map (fun sw => Some (writeValues 0 None false (map (fun p => dSizes (pExtra p)) (snd sw)) (fOrder (conf (fst sw))))) (indexed ws) in
      mapO (fun sw => exchangeSizes esz (length levels) (fOut (conf (fst sw))) (others (fst sw) files) (snd sw)) (indexed ws)
  end.

(** ** The combination *)

(** MPI_Reduce instead of MPI_Allreduce: only the process [root] gets the sums. *)
Fixpoint reduces (root : nat) (rounds : list (list nat * (nat -> list Z))) (bufs : nat -> arr) : option (nat -> arr) :=
  match rounds with
  | [] => Some bufs
  | (members, addr) :: rounds' =>
      match allreduce members addr bufs with
      | None => None
      | Some bufs' => reduces root rounds' (fun r => if Nat.eqb r root then bufs' r else bufs r)
      end
  end.
(** CombiCom.hpp:116-165, distributedGlobalSparseGridReduce with a rank that collects. *)
Definition sparseGridReduceTo (root R : nat) (chunkSize : Z) (ds : nat -> DSG) : option (nat -> DSG) :=
  match roundsOf (seq 0 R) (fun r => optCalls (sparseGridCalls (Z.to_nat (dLen (ds r))) (dLen (ds r)) chunkSize 0)) with
  | None => None
  | Some rounds => match reduces root rounds (fun r => dData (ds r)) with
                   | None => None
                   | Some bufs => Some (fun r => withData (ds r) (bufs r))
                   end
  end.

(** DistributedSparseGridUniform.hpp: getAllocatedDataSize, and 460-475, copyDataFrom (the assertions are not modelled). *)
Definition allocatedSize (d : DSG) (i : Z) : Z := if memZ i (dWith d) then dataSize d i else 0.
Definition copySubspace (other d : DSG) (a : arr) (i : Z) : arr :=
  let n := Z.min (allocatedSize other i) (allocatedSize d i) in
  let from := ptrOf (dPtr other) i in
  let to := ptrOf (dPtr d) i in
  fun k => if (to <=? k) && (k <? to + n) then dData other (from + (k - to)) else a k.
Definition copyDataFrom (other d : DSG) : DSG :=
  withData d (fold_left (copySubspace other d) (zrange 0 (numSubspaces d)) (dData d)).

(** SparseGridWorker.hpp:999-1029, reduceLocalAndGlobal with the output rank as collector, and 1144-1149: the extra sparse grid
    before it is written. *)
Definition localReduce (esz chunkSize : Z) (out : nat) (levels : list (list Z)) (p : Proc) : option Proc :=
  let p := zeroProc esz p in
  match mapO (fun g => addAll true levels (gTasks g) (gDsg g)) (pGroups p) with
  | None => None
  | Some ds =>
      match sparseGridReduceTo out (length (pGroups p)) chunkSize (dsgAt ds) with
      | None => None
      | Some ds' => Some {| pGroups := mapDsgs (fun r _ => ds' r) (pGroups p); pExtra := copyDataFrom (ds' out) (pExtra p) |}
      end
  end.

(** getRawData and getRawDataSize. *)
Definition rawValues (d : DSG) : list Qc := map (dData d) (zrange 0 (dLen d)).
Definition withRaw (vals : list Qc) (d : DSG) : DSG :=
  withData d (fun k => if (0 <=? k) && (k <? dLen d) then nth (Z.to_nat k) vals 0%Qc else dData d k).

(** SparseGridWorker.hpp:831-856, readDSGsFromDiskAndReduce on all processes of the output communicator: the sums in the extra
    sparse grid, copied back to the combined one of the output group. *)
Definition readFile (fuel buffer out : nat) (file : option (list Qc)) (ps : list Proc) : option (list Proc) :=
  match readReduceValues fuel Qcplus file buffer (map (fun p => rawValues (pExtra p)) ps) with
  | None => None
  | Some vs => Some (map (fun vp => let e := withRaw (fst vp) (pExtra (snd vp)) in
                                    {| pGroups := mapDsgs (fun r d => if Nat.eqb r out then copyDataFrom e d else d) (pGroups (snd vp)); pExtra := e |})
                         (combine vs ps))
  end.
(** SparseGridWorker.hpp:859-914, readReduce with overwrite = false. *)
Definition readFiles (query : oracle) (fuel buffer out : nat) (files : list (option (list Qc))) (ps : list Proc) : option (list nat * list Proc) :=
  readLoop query (fun i => readFile fuel buffer out (nth i files None)) fuel 0 (seq 0 (length files)) [] ps.

(** SparseGridWorker.hpp:1118-1134, startSingleBroadcastDSGs, CombiCom.hpp:578-595, asyncBcastDsgData, in all groups. [None]: an exception, or
    different sizes. *)
Definition broadcastOut (out : nat) (gs : list Group) : option (list Group) :=
  let d0 := groupDsg gs out in
  if forallb (fun g => dLen (gDsg g) =? dLen d0) gs && (dLen d0 <? 2 ^ 31 - 1)
  then Some (mapDsgs (fun r d => if Nat.eqb r out then d
                                 else withData d (fun k => if (0 <=? k) && (k <? dLen d) then dData d0 k else dData d k)) gs)
  else None.

(** ProcessGroupWorker.cpp:857-862, 1003-1022, 726-728: after reading, in all groups. *)
Definition finishProc (out : nat) (levels : list (list Z)) (p : Proc) : option Proc :=
  match broadcastOut out (pGroups p) with
  | None => None
  | Some gs => match mapO (fun g => distribute true levels (gDsg g) g) gs with
               | None => None
               | Some gs' => Some {| pGroups := gs'; pExtra := pExtra p |}
               end
  end.

(** ProcessGroupWorker.cpp:491-526 and 874-894 on all systems (between hierarchization and dehierarchization); [olds s]: what the
    file of system [s] holds before. *)
Definition combineWide (esz : Z) (levels : list (list Z)) (conf : nat -> Conf) (fuel : nat) (olds : nat -> option (list Qc)) (ws : list (list Proc))
  : option (list (list Proc)) :=
  match mapO (fun sw => let c := conf (fst sw) in mapO (localReduce esz (fChunk c) (fOut c) levels) (snd sw)) (indexed ws) with
  | None => None
  | Some ws1 =>
      let files := map (fun sw => Some (writeValues 0%Qc (olds (fst sw)) false (map (fun p => rawValues (pExtra p)) (snd sw)) (fOrder (conf (fst sw))))) (indexed ws1) in
      mapO (fun sw => let c := conf (fst sw) in
                      match readFiles (fQuery c) fuel (fBuffer c) (fOut c) (others (fst sw) files) (snd sw) with
                      | None => None
                      | Some (_, ps) => mapO (finishProc (fOut c) levels) ps
                      end) (indexed ws1)
  end.
