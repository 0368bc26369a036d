(** Model of grids that are created from the combined solution: tasks that move to another process group and grids for output
    (src/manager/SparseGridWorker.hpp:627-656 and 755-784, src/manager/ProcessGroupWorker.cpp:368-411 and 567-582,
    src/manager/ProcessManager.cpp:592-604). *)
From Verif Require Import Base TensorModel PartitionModel DecompModel SubspaceModel Hier1dModel DistHierModel HierNDModel
  SparseGridModel CombineModel ReduceModel CombiStepModel SystemModel.
From Coq Require Import QArith Qcanon.
Open Scope Z_scope.

(** DistributedFullGrid.hpp:1306-1341, extractFromUniformSG, where reading through a null pointer (a subspace with a size but
    without data) shows up as [None]. *)
Definition extractCheckedBody (d : DSG) (g : Grid) (i : Z) (l : list Z) (values : option arr) : option arr :=
  match values with
  | None => None
  | Some v => if shouldBeCopied true d i
              then match nth (Z.to_nat i) (dPtr d) None with Some _ => Some (extractBody true d g i l v) | None => None end
              else Some v
  end.
Definition extractChecked (levels : list (list Z)) (threads : list (list (list Z))) (d : DSG) (g : Grid) (values : arr) : option arr :=
  match forLevels (extractCheckedBody d g) levels threads (Some values) with Some r => r | None => None end.

(** SparseGridWorker.hpp:627-645, fillDFGFromDSGU on all ranks of a group, into the grid of [t] whose values are zero
    (ProcessGroupWorker.cpp:278 and 376: setZero; SparseGridWorker.hpp:763-765: a new grid). [ds r] is the sparse grid of rank [r]. *)
Definition fillGrid (y : Setup) (stale : nat -> Z -> Z -> arr) (ds : Z -> DSG) (t : SysTask) : option SysTask :=
  match mapO (fun r => extractChecked (yLevels y) (sThreads t r) (ds r) (cGrid (localTask y r t)) zeroA) (zrange 0 (zprod (yProcs y))) with
  | None => None
  | Some vs => sweepTask y true stale (withData t (fun r => nth (Z.to_nat r) vs zeroA))
  end.

(** The sparse grids of group [b]. *)
Definition dsgOf (S : System) (b : nat) (r : Z) : DSG :=
  match nth_error (sDsgs S r) b with Some p => fst p | None => initDSG 0 end.

Fixpoint modAt {A : Type} (k : nat) (f : A -> A) (l : list A) : list A :=
  match l, k with
  | [], _ => []
  | a :: l', O => f a :: l'
  | a :: l', S k' => a :: modAt k' f l'
  end.

(** ProcessGroupWorker.cpp:368-383, RESCHEDULE_ADD_TASK in group [b]: a new Kahan buffer on every rank, the task at the end of
    the list, its grid filled from the sparse grid. The sparse grid does not get to know the new task. *)
Definition addTask (y : Setup) (esz : Z) (stale : nat -> Z -> Z -> arr) (b : nat) (t : SysTask) (S : System) : option System :=
  let S1 := {| sTasks := sTasks S; sDsgs := fun r => modAt b (fun p => (createKahanBuffer esz (fst p), snd p)) (sDsgs S r) |} in
  match fillGrid y stale (dsgOf S1 b) t with
  | None => None
  | Some t' => Some {| sTasks := modAt b (fun ts => ts ++ [t']) (sTasks S); sDsgs := sDsgs S1 |}
  end.

(** ProcessGroupWorker.cpp:384-411, RESCHEDULE_REMOVE_TASK: the [k]-th task of group [a] leaves the list, the sparse grid stays
    as it is. *)
Definition removeTask (a k : nat) (S : System) : System :=
  {| sTasks := modAt a (fun ts => firstn k ts ++ skipn (Datatypes.S k) ts) (sTasks S); sDsgs := sDsgs S |}.

(** ProcessManager.cpp:592-604: one task to migrate. Only level, coefficient and the like travel with it (src/task/Task.hpp,
    serialize), not the values. *)
Definition moveTask (y : Setup) (esz : Z) (stale : nat -> Z -> Z -> arr) (a k b : nat) (S : System) : option System :=
  match nth_error (sTasks S) a with
  | None => None
  | Some ts =>
      match nth_error ts k with
      | None => None
      | Some t => if (b <? length (sTasks S))%nat then addTask y esz stale b (withData t (fun _ => zeroA)) (removeTask a k S) else None
      end
  end.
