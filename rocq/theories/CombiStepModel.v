(** Model of the combination step of all process groups, for the processes of one global-reduce communicator
    (src/manager/SparseGridWorker.hpp, ProcessGroupWorker.cpp:538-564, between hierarchization and dehierarchization). *)
From Verif Require Import Base SparseGridModel CombineModel ReduceModel.
From Coq Require Import QArith Qcanon.
Open Scope Z_scope.

(** CombinationVariant (src/utils/Types.hpp:52-57): the four ways to reduce between groups. *)
Inductive CombinationVariant := VSparseGrid | VSubspace | VOutgroup | VChunkedOutgroup.

(** What one process keeps for the combination: its tasks, its sparse grid (combinedUniDSGVector_, one grid), and
    subspacesByComm_ of the sparse grid. *)
Record Group := { gTasks : list Comp; gDsg : DSG; gComms : list (list nat * list Z) }.

(** All processes do the same step; [None] if it fails on one of them. *)
Fixpoint mapO {A B : Type} (f : A -> option B) (l : list A) : option (list B) :=
  match l with
  | [] => Some []
  | a :: l' => match f a, mapO f l' with Some b, Some bs => Some (b :: bs) | _, _ => None end
  end.

Definition dsgAt (ds : list DSG) (r : nat) : DSG := nth r ds (initDSG 0).

(** SparseGridWorker.hpp:708-746 and 1032-1055, initCombinedUniDSGVector and reduceSubspaceSizesBetweenGroups, for the
    level vectors [levels] of the sparse grid (C15) and the tasks of each group. *)
Definition initGroups (v : CombinationVariant) (esz : Z) (levels : list (list Z)) (tasks : list (list Comp)) : option (list Group) :=
  match mapO (fun cs => registerAll levels cs (initDSG (length levels))) tasks with
  | None => None
  | Some ds =>
      let ds := match v with VChunkedOutgroup => ds | _ => map (createKahanBuffer esz) ds end in
      let R := length tasks in
      let n := length levels in
      let sizes := fun r => dSizes (dsgAt ds r) in
      Some (map (fun r =>
        let d := dsgAt ds r in
        {| gTasks := nth r tasks [];
           gDsg := match v with
                   | VSparseGrid => overwriteSizesAndDelete (map (maxSize R sizes) (zrange 0 (Z.of_nat n))) d
                   | VSubspace => deleteSubspaceData d
                   | _ => overwriteSizesAndDelete (outgroupSizes n R sizes r) d
                   end;
           gComms := match v with
                     | VSparseGrid => []
                     | VSubspace => subspaceCommunicators n R sizes r
                     | _ => outgroupCommunicator n R sizes r
                     end |}) (seq 0 R))
  end.

(** Extracting into the tasks of group [r]. *)
Definition distribute (fully : bool) (levels : list (list Z)) (d : DSG) (g : Group) : option Group :=
  match extractAll fully levels d (gTasks g) with
  | None => None
  | Some ts => Some {| gTasks := ts; gDsg := d; gComms := gComms g |}
  end.
Definition distributeAll (fully : bool) (levels : list (list Z)) (ds : nat -> DSG) (gs : list Group) : option (list Group) :=
  mapO (fun rg => distribute fully levels (ds (fst rg)) (snd rg)) (combine (seq 0 (length gs)) gs).

(** SparseGridWorker.hpp:999-1029 and 615-625: reduceLocalAndGlobal and distributeCombinedSolutionToTasks. [chunkSize] is the
    number of elements of getGlobalReduceChunkSize, [order] the order of the communicators. *)
Definition reduceAndDistribute (v : CombinationVariant) (esz chunkSize : Z) (order : list (list nat)) (levels : list (list Z)) (gs : list Group)
  : option (list Group) :=
  match mapO (fun g => addAll true levels (gTasks g) (zeroDsgData esz (gDsg g))) gs with
  | None => None
  | Some ds =>
      match (match v with
             | VSparseGrid => sparseGridReduce (length gs) chunkSize (dsgAt ds)
             | _ => subspaceReduce chunkSize order (fun r => match nth_error gs r with Some g => gComms g | None => [] end) (dsgAt ds)
             end) with
      | None => None
      | Some ds' => distributeAll true levels ds' gs
      end
  end.

(** SparseGridWorker.hpp:379-381: the chunks of the communicated subspaces. *)
Definition outgroupChunks (chunkSize : Z) (g : Group) : list (list Z) :=
  match gComms g with [] => [] | c :: _ => getChunkedSubspaces (dataSize (gDsg g)) chunkSize (snd c) end.

Definition allocateChunk (esz : Z) (chunk : list Z) (g : Group) : Group :=
  {| gTasks := gTasks g; gDsg := allocateDifferentSubspaces esz chunk (gDsg g); gComms := gComms g |}.

(** SparseGridWorker.hpp:382-421: one communicated chunk on all groups; CombiCom.hpp:350-353 with communicateAllAllocated. *)
Definition outgroupRound (esz chunkSize : Z) (levels : list (list Z)) (chunks : list (list Z)) (gs : list Group) : option (list Group) :=
  let gs := map (fun cg => allocateChunk esz (fst cg) (snd cg)) (combine chunks gs) in
  match mapO (fun g => addAll false levels (gTasks g) (gDsg g)) gs with
  | None => None
  | Some ds =>
      let all := seq 0 (length gs) in
      match subspaceReduce chunkSize [all] (fun r => match nth_error ds r with Some d => [(all, dWith d)] | None => [] end) (dsgAt ds) with
      | None => None
      | Some ds' => distributeAll false levels ds' gs
      end
  end.
Fixpoint outgroupRounds (esz chunkSize : Z) (levels : list (list Z)) (rounds : list (list (list Z))) (gs : list Group) : option (list Group) :=
  match rounds with
  | [] => Some gs
  | chunks :: rounds' => match outgroupRound esz chunkSize levels chunks gs with
                         | None => None
                         | Some gs' => outgroupRounds esz chunkSize levels rounds' gs'
                         end
  end.

(** SparseGridWorker.hpp:425-448: the chunks that are not communicated, on one process. *)
Fixpoint ingroupRounds (esz : Z) (levels : list (list Z)) (chunks : list (list Z)) (g : Group) : option Group :=
  match chunks with
  | [] => Some g
  | chunk :: chunks' =>
      let g := allocateChunk esz chunk g in
      match addAll false levels (gTasks g) (gDsg g) with
      | None => None
      | Some d => match distribute false levels d g with
                  | None => None
                  | Some g' => ingroupRounds esz levels chunks' g'
                  end
      end
  end.
Definition ingroupPart (esz chunkSize : Z) (levels : list (list Z)) (g : Group) : option Group :=
  let chunks := getChunkedSubspaces (dataSize (gDsg g)) chunkSize (ingroupSubspaces (dSizes (gDsg g)) (gComms g)) in
  match ingroupRounds esz levels chunks g with
  | None => None
  | Some g' => Some {| gTasks := gTasks g'; gDsg := deleteSubspaceData (gDsg g'); gComms := gComms g' |}
  end.

(** SparseGridWorker.hpp:364-452, collectReduceDistribute (without extra sparse grid and statistics). The communicator of the
    outgroup chunks contains all groups, so that all of them have to take part in every round. *)
Definition collectReduceDistribute (esz chunkSize : Z) (levels : list (list Z)) (gs : list Group) : option (list Group) :=
  let chunks := map (outgroupChunks chunkSize) gs in
  let m := match chunks with [] => O | c :: _ => length c end in
  if forallb (fun c => Nat.eqb (length c) m) chunks then
    match outgroupRounds esz chunkSize levels (map (fun k => map (fun c => nth k c []) chunks) (seq 0 m)) gs with
    | None => None
    | Some gs' => mapO (ingroupPart esz chunkSize levels) gs'
    end
  else None.

(** ProcessGroupWorker.cpp:546-561. *)
Definition combineStep (v : CombinationVariant) (esz chunkSize : Z) (order : list (list nat)) (levels : list (list Z)) (gs : list Group)
  : option (list Group) :=
  match v with
  | VChunkedOutgroup => collectReduceDistribute esz chunkSize levels gs
  | _ => reduceAndDistribute v esz chunkSize order levels gs
  end.
