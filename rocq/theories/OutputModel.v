(** Model of the output of the combined solution on a grid of any level, and of several solutions one after the other
    (src/manager/SparseGridWorker.hpp:758-783, src/manager/ProcessGroupWorker.cpp:567-582). *)
From Verif Require Import Base TensorModel PartitionModel DecompModel SubspaceModel Hier1dModel DistHierModel HierNDModel
  SparseGridModel CombineModel ReduceModel CombiStepModel SystemModel MigrateModel FileModel PlotModel.
From Coq Require Import QArith Qcanon.
Open Scope Z_scope.

(** SparseGridWorker.hpp:627-645, fillDFGFromDSGU on all ranks of a group, into a grid [t] that has values already. *)
Definition fillOver (y : Setup) (stale : nat -> Z -> Z -> arr) (ds : Z -> DSG) (t : SysTask) : option SysTask :=
  match mapO (fun r => extractChecked (yLevels y) (sThreads t r) (ds r) (cGrid (localTask y r t)) (sData t r)) (zrange 0 (zprod (yProcs y))) with
  | None => None
  | Some vs => sweepTask y true stale (withData t (fun r => nth (Z.to_nat r) vs zeroA))
  end.

(** The grid in which the output is computed (ProcessGroupWorker.cpp:575-577, SparseGridWorker.hpp:764-767): level [L], the decomposition
    of the tasks brought to this level, all values zero (DistributedFullGrid.hpp:1980); [threads r]: how the threads of rank [r] share the
    subspaces (DistributedFullGrid.hpp:1319-1321). It has no coefficient; zero stands for it. *)
Definition outputGrid (L : list Z) (threads : Z -> list (list (list Z))) : SysTask :=
  {| sLevel := L; sCoeff := 0%Qc; sThreads := threads; sData := fun _ => zeroA |}.

(** SparseGridWorker.hpp:768-782: one sparse grid after the other is brought into the same grid; [t] is the grid before. The results are
    the contents of the grid when the files are written. *)
Fixpoint outputGrids (y : Setup) (stale : nat -> Z -> Z -> arr) (dss : list (Z -> DSG)) (t : SysTask) : option (list SysTask) :=
  match dss with
  | [] => Some []
  | ds :: dss' =>
      match fillOver y stale ds t with
      | None => None
      | Some t' => match outputGrids y stale dss' t' with None => None | Some ts => Some (t' :: ts) end
      end
  end.

(** ProcessGroupWorker.cpp:567-582, parallelEvalUniform by group [b] for a name with ".raw" of the solutions of [Ss] (numgrids of them, all with the
    same tasks and grids, SparseGridWorker.hpp:773): the written files. [order]: see [writePlotRaw]; [old]: what the files contained. *)
Definition parallelEvalRaw (y : Setup) (L : list Z) (threads : Z -> list (list (list Z))) (stale : nat -> Z -> Z -> arr) (b : nat) (Ss : list System)
    (esz : Z) (order : list Z) (old : pfile) : option (list pfile) :=
  option_map (map (fun t => writePlotRaw esz (yProcs y) (globalSizes L (yBnds y)) (downsampleDecomposition (yDecs y) (yRef y) L (yBnds y)) order (sData t) old))
             (outputGrids y stale (map (fun S => dsgOf S b) Ss) (outputGrid L threads)).
