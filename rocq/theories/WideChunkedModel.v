(** Model of the combination of several systems through files in the variant chunkedOutgroupSparseGridReduce: every system sums
    its subspaces chunk by chunk, its output group keeps those that more than one system has in an extra sparse grid, exchanges
    them with the other systems through files, and gives the sums to all groups chunk by chunk
    (src/manager/ProcessGroupWorker.cpp:491-526, 841-894, 966-1000, SparseGridWorker.hpp). As in WideModel there are the processes of one
    file part, each with the processes of the other groups that have the same rank in their group. Not modelled: the same as
    in WideModel; the requests of the broadcasts (a receiver waits before it extracts, the sender only reads its buffer). *)
From Verif Require Import Base Hier1dModel SparseGridModel CombineModel ReduceModel CombiStepModel FileModel ExchangeModel WideModel.
From Coq Require Import QArith Qcanon.
Open Scope Z_scope.

(** ** Agreeing on the sizes *)

(** SparseGridWorker.hpp:1032-1055, reduceSubspaceSizesBetweenGroups, and AnyDistributedSparseGrid.cpp:154-219, setOutgroupCommunicator. *)
Definition betweenOutgroups (n : nat) (p : Proc) : Proc :=
  let gs := pGroups p in
  let sizes := fun r => dSizes (groupDsg gs r) in
  {| pGroups := map (fun rg => {| gTasks := gTasks (snd rg);
                                  gDsg := overwriteSizesAndDelete (outgroupSizes n (length gs) sizes (fst rg)) (gDsg (snd rg));
                                  gComms := outgroupCommunicator n (length gs) sizes (fst rg) |}) (indexed gs);
     pExtra := pExtra p |}.

(** SparseGridWorker.hpp:1202-1217, zeroDsgsData: in this variant only the extra sparse grid gets data. *)
Definition zeroExtra (esz : Z) (p : Proc) : Proc :=
  {| pGroups := mapDsgs (fun _ d => setZero d) (pGroups p); pExtra := zeroDsgData esz (pExtra p) |}.

(** ProcessGroupWorker.cpp:975-976, after the groups of the system agreed on their sizes. *)
Definition startChunkedProc (esz : Z) (levels : list (list Z)) (out : nat) (tasks : list (list Comp)) : option Proc :=
  match initGroups VChunkedOutgroup esz levels tasks with
  | None => None
  | Some gs => let n := length levels in
               Some (maxReduceInOutputGroup n out {| pGroups := gs; pExtra := newExtra esz n (dSizes (groupDsg gs out)) |})
  end.

(** SparseGridWorker.hpp:990-995, ProcessGroupWorker.cpp:955, 995-998: with the sizes [s] of the extra sparse grid. *)
Definition enlargeChunked (esz : Z) (n out : nat) (s : list Z) (p : Proc) : Proc :=
  let e := overwriteSizes s (pExtra p) in
  let gs := mapDsgs (fun r d => if Nat.eqb r out then maxReduceSubspaceSizes (dSizes e) d else d) (pGroups p) in
  let p1 := zeroExtra esz (betweenOutgroups n {| pGroups := gs; pExtra := e |}) in
  zeroExtra esz (betweenOutgroups n p1).

(** ProcessGroupWorker.cpp:966-1000 and SparseGridWorker.hpp:917-996. *)
Definition exchangeChunked (esz : Z) (n out : nat) (files : list (option (list Z))) (ps : list Proc) : option (list Proc) :=
  let ps := map (maxReduceInOutputGroup n out) ps in
  match reduceExtraSizes n files (map (fun p => dSizes (pExtra p)) ps) with
  | None => None
  | Some new => Some (map (fun sp => enlargeChunked esz n out (fst sp) (snd sp)) (combine new ps))
  end.

(** All systems agree on the sizes, as startWide of WideModel. *)
Definition startChunked (esz : Z) (levels : list (list Z)) (conf : nat -> Conf) (tasks : list (list (list (list Comp))))
  : option (list (list Proc)) :=
  match mapO (fun st => mapO (startChunkedProc esz levels (fOut (conf (fst st)))) (snd st)) (indexed tasks) with
  | None => None
  | Some ws =>
      let files := map (fun sw => Some (writeValues 0 None false (map (fun p => dSizes (pExtra p)) (snd sw)) (fOrder (conf (fst sw))))) (indexed ws) in
      mapO (fun sw => exchangeChunked esz (length levels) (fOut (conf (fst sw))) (others (fst sw) files) (snd sw)) (indexed ws)
  end.

(** ** Summing in each system *)

(** DistributedSparseGridUniform.hpp:478-495, copyDataFrom with a list of subspaces (the assertions are not modelled). *)
Definition copyOne (other d : DSG) (a : arr) (i : Z) : arr :=
  let n := Z.min (dataSize other i) (dataSize d i) in
  let from := ptrOf (dPtr other) i in
  let to := ptrOf (dPtr d) i in
  fun k => if (to <=? k) && (k <? to + n) then dData other (from + (k - to)) else a k.
Definition copySome (other d : DSG) (is : list Z) : DSG := withData d (fold_left (copyOne other d) is (dData d)).

(** SparseGridWorker.hpp:455-475, copyFromPartialDsgToExtraDSG: [None] is the exception for an extra sparse grid without data. *)
Definition keepChunk (d e : DSG) : option DSG :=
  if dLen e =? 0 then None else Some (copySome d e (filter (fun i => negb (dataSize e i =? 0)) (dWith d))).
(** SparseGridWorker.hpp:478-497, copyFromExtraDsgToPartialDSG. *)
Definition restoreChunk (e d : DSG) : DSG := copySome e d (filter (fun i => negb (dataSize e i =? 0)) (dWith d)).

(** SparseGridWorker.hpp:378-423 with keepValuesInExtraSparseGrid in the output group. (Extracting does not change the sparse grid, so that
    its values can be kept after it.) *)
Fixpoint outgroupRoundsKeep (esz chunkSize : Z) (out : nat) (levels : list (list Z)) (rounds : list (list (list Z))) (gs : list Group) (e : DSG)
  : option (list Group * DSG) :=
  match rounds with
  | [] => Some (gs, e)
  | chunks :: rounds' => match outgroupRound esz chunkSize levels chunks gs with
                         | None => None
                         | Some gs' => match keepChunk (groupDsg gs' out) e with
                                       | None => None
                                       | Some e' => outgroupRoundsKeep esz chunkSize out levels rounds' gs' e'
                                       end
                         end
  end.
(** SparseGridWorker.hpp:425-448 in the output group. *)
Fixpoint ingroupRoundsKeep (esz : Z) (levels : list (list Z)) (chunks : list (list Z)) (g : Group) (e : DSG) : option (Group * DSG) :=
  match chunks with
  | [] => Some (g, e)
  | chunk :: chunks' => match ingroupRounds esz levels [chunk] g with
                        | None => None
                        | Some g' => match keepChunk (gDsg g') e with
                                     | None => None
                                     | Some e' => ingroupRoundsKeep esz levels chunks' g' e'
                                     end
                        end
  end.
Definition ingroupChunks (chunkSize : Z) (g : Group) : list (list Z) :=
  getChunkedSubspaces (dataSize (gDsg g)) chunkSize (ingroupSubspaces (dSizes (gDsg g)) (gComms g)).

(** SparseGridWorker.hpp:364-452, collectReduceDistribute, with keepValuesInExtraSparseGrid in the output group (ProcessGroupWorker.cpp:502-515).
    [ingroupPart] does what the output group does with its own subspaces except for keeping them. *)
Definition collectKeep (esz chunkSize : Z) (out : nat) (levels : list (list Z)) (p : Proc) : option Proc :=
  let chunks := map (outgroupChunks chunkSize) (pGroups p) in
  let m := match chunks with [] => O | c :: _ => length c end in
  if forallb (fun c => Nat.eqb (length c) m) chunks then
    match outgroupRoundsKeep esz chunkSize out levels (map (fun k => map (fun c => nth k c []) chunks) (seq 0 m)) (pGroups p) (pExtra p) with
    | None => None
    | Some (gs, e) =>
        match nth_error gs out with
        | None => None
        | Some go => match ingroupRoundsKeep esz levels (ingroupChunks chunkSize go) go e, mapO (ingroupPart esz chunkSize levels) gs with
                     | Some (_, e'), Some gs' => Some {| pGroups := gs'; pExtra := e' |}
                     | _, _ => None
                     end
        end
    end
  else None.

(** ** Exchange and distribution *)

(** SparseGridWorker.hpp:831-856: as readFile of WideModel; the sums are copied to the combined sparse grid of the output group only if it
    has data. *)
Definition readFileChunked (fuel buffer out : nat) (file : option (list Qc)) (ps : list Proc) : option (list Proc) :=
  match readReduceValues fuel Qcplus file buffer (map (fun p => rawValues (pExtra p)) ps) with
  | None => None
  | Some vs => Some (map (fun vp => let e := withRaw (fst vp) (pExtra (snd vp)) in
                                    {| pGroups := mapDsgs (fun r d => if Nat.eqb r out then if dLen d =? 0 then d else copyDataFrom e d else d) (pGroups (snd vp));
                                       pExtra := e |})
                         (combine vs ps))
  end.
Definition readFilesChunked (query : oracle) (fuel buffer out : nat) (files : list (option (list Qc))) (ps : list Proc) : option (list nat * list Proc) :=
  readLoop query (fun i => readFileChunked fuel buffer out (nth i files None)) fuel 0 (seq 0 (length files)) [] ps.

(** CombiCom.hpp:609-633, asyncBcastOutgroupDsgData with communicateAllAllocated: the addresses of the first datatype for the allocated subspaces
    (getReductionDatatypes without limit, i.e. with chunks of less than 2^31 - 1 elements). *)
Definition bcastAddresses (d : DSG) : list Z :=
  match getChunkedSubspaces (dataSize d) (2 ^ 31 - 1) (dWith d) with [] => [] | c :: _ => chunkAddresses d c end.
(** The broadcast: [d0] is the sparse grid of the sender. *)
Definition bcastInto (d0 d : DSG) : DSG := withData d (scatterV (bcastAddresses d) (map (dData d0) (bcastAddresses d0)) (dData d)).

(** SparseGridWorker.hpp:550-584, one chunk on all groups. [None]: a group without communicator, which does not take part in the broadcast, or different
    numbers of elements. *)
Definition bcastRound (esz : Z) (out : nat) (levels : list (list Z)) (chunks : list (list Z)) (e : DSG) (gs : list Group) : option (list Group) :=
  let gs := map (fun cg => allocateChunk esz (fst cg) (snd cg)) (combine chunks gs) in
  let d0 := restoreChunk e (groupDsg gs out) in
  if forallb (fun g => match gComms g with [] => false | _ => true end) gs
     && forallb (fun g => Nat.eqb (length (bcastAddresses (gDsg g))) (length (bcastAddresses d0))) gs
  then mapO (fun rg => distribute false levels (if Nat.eqb (fst rg) out then d0 else bcastInto d0 (gDsg (snd rg))) (snd rg)) (indexed gs)
  else None.
Fixpoint bcastRounds (esz : Z) (out : nat) (levels : list (list Z)) (rounds : list (list (list Z))) (e : DSG) (gs : list Group) : option (list Group) :=
  match rounds with
  | [] => Some gs
  | chunks :: rounds' => match bcastRound esz out levels chunks e gs with
                         | None => None
                         | Some gs' => bcastRounds esz out levels rounds' e gs'
                         end
  end.
(** SparseGridWorker.hpp:603-610: the subspaces that the output group has alone. *)
Fixpoint restoreRounds (esz : Z) (levels : list (list Z)) (chunks : list (list Z)) (e : DSG) (g : Group) : option Group :=
  match chunks with
  | [] => Some g
  | chunk :: chunks' => let g := allocateChunk esz chunk g in
                        match distribute false levels (restoreChunk e (gDsg g)) g with
                        | None => None
                        | Some g' => restoreRounds esz levels chunks' e g'
                        end
  end.

(** SparseGridWorker.hpp:505-612, distributeChunkedBroadcasts. *)
Definition candidates (g : Group) : list Z := match gComms g with [] => [] | c :: _ => snd c end.
Definition distributeChunked (esz chunkSize : Z) (out : nat) (levels : list (list Z)) (p : Proc) : option Proc :=
  match nth_error (pGroups p) out with
  | None => None
  | Some go =>
      let e := pExtra p in
      let subspaces := filter (fun i => (0 <? dataSize e i) && memZ i (candidates go)) (zrange 0 (numSubspaces e)) in
      let chunks := map (fun g => getChunkedSubspaces (dataSize (gDsg g)) chunkSize subspaces) (pGroups p) in
      let m := match chunks with [] => O | c :: _ => length c end in
      if forallb (fun c => Nat.eqb (length c) m) chunks then
        match bcastRounds esz out levels (map (fun k => map (fun c => nth k c []) chunks) (seq 0 m)) e (pGroups p) with
        | None => None
        | Some gs =>
            match nth_error gs out with
            | None => None
            | Some go' =>
                let alone := filter (fun i => memZ i (ingroupSubspaces (dSizes (gDsg go')) (gComms go')) && (0 <? dataSize e i)) (zrange 0 (numSubspaces (gDsg go'))) in
                match restoreRounds esz levels (getChunkedSubspaces (dataSize (gDsg go')) chunkSize alone) e go' with
                | None => None
                | Some go'' => Some {| pGroups := map (fun rg => if Nat.eqb (fst rg) out then go'' else snd rg) (indexed gs); pExtra := e |}
                end
            end
        end
      else None
  end.

(** ProcessGroupWorker.cpp:491-526 and 874-894 on all systems (between hierarchization and dehierarchization); [olds s]: what the
    file of system [s] holds before. *)
Definition combineChunked (esz : Z) (levels : list (list Z)) (conf : nat -> Conf) (fuel : nat) (olds : nat -> option (list Qc)) (ws : list (list Proc))
  : option (list (list Proc)) :=
  match mapO (fun sw => let c := conf (fst sw) in mapO (collectKeep esz (fChunk c) (fOut c) levels) (snd sw)) (indexed ws) with
  | None => None
  | Some ws1 =>
      let files := map (fun sw => Some (writeValues 0%Qc (olds (fst sw)) false (map (fun p => rawValues (pExtra p)) (snd sw)) (fOrder (conf (fst sw))))) (indexed ws1) in
      mapO (fun sw => let c := conf (fst sw) in
                      match readFilesChunked (fQuery c) fuel (fBuffer c) (fOut c) (others (fst sw) files) (snd sw) with
                      | None => None
                      | Some (_, ps) => mapO (distributeChunked esz (fChunk c) (fOut c) levels) ps
                      end) (indexed ws1)
  end.
