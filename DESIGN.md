# Formal model of DisCoTec in Rocq (Coq 8.16.1)

## Approach

Every file below `rocq/theories` is a *model* file (`...Model.v`: definitions only, each citing the C++ lines it
models), a *proof* file (`...Proofs.v`), or a *properties* file (`...Props.v`) that states the theorems, shows a
concrete instance meeting the hypotheses and prints the assumptions. `Base.v` and `QcTools.v` hold lists and
rational arithmetic.

* Indices and levels are `Z`; list lengths are `nat`. Where the width of a C++ integer matters for a property
  (wrap-around), the modulus is explicit in the model (`u32`, `u64`, `i32`, `toInt`, `mod 256`).
* Floating-point values are exact rationals (`Qc`, canonical rationals of the standard library). Rounding is not
  modelled anywhere: equalities of values are statements about exact arithmetic.
* A buffer is a function from indices to values; equality of buffers is pointwise on the indices that exist.
* MPI enters by its specification: point-to-point messages keep their order per sender and receiver, reductions
  return the sum (or maximum) over the communicator and need matching calls of all members, `Exscan` is the exclusive
  prefix sum, subarray types enumerate the sub-box in Fortran order, `Comm_split` orders by key and old rank. A
  mismatch of collective calls is `None`.
* OpenMP loops are modelled with an explicit arbitrary schedule where the property depends on it (lookup of levels,
  order of communicators), otherwise sequentially.
* Concurrency between programs (manager and groups, broker and systems) is a transition relation with arbitrary
  interleaving; theorems quantify over all runs.
* `std::sort` enters by its specification (any ordered permutation), `std::lower_bound` by libstdc++'s algorithm,
  `std::map` and `std::set` as ordered lists.
* Where the code violates a property, a theorem `..._refuted` proves the violation on a concrete input, and another
  theorem proves what does hold under an explicit extra precondition. `..._partial` marks theorems that cover only
  part of the English statement. Both kinds are reported as `partial` in MANIFEST.json.

## Files and code

| model | code |
| --- | --- |
| TensorModel, PartitionModel, DecompModel, SubspaceModel | fullgrid/Tensor.hpp, mpi/MPICartesianUtils.hpp, utils/DecompositionUtils.hpp, fullgrid/DistributedFullGrid.hpp (indices, bounds, subspaces) |
| Level1dModel, LevelSetsModel, DofModel | DistributedFullGrid.hpp (levels, predecessors), utils/LevelSetUtils, utils/PowerOfTwo.hpp, combischeme/CombiMinMaxScheme.hpp (counting) |
| CombiSchemeModel, AssignModel | combischeme/CombiMinMaxScheme, combischeme/CombiThirdLevelScheme |
| Hier1dModel, DistHierModel, HierNDModel | hierarchization/DistributedHierarchization.hpp |
| KahanModel | the compensated summation of DistributedSparseGridUniform.hpp:851-861, InterpolationWorker.hpp:25-32, ProcessManager.cpp:434-448, with any rounding |
| RecoveryModel | recovery after failed groups: ProcessManager.cpp:163-340 (getGroupFaultIDs, recoverCommunicators, redistribute, reInitializeGroup, recompute), the group manager and worker side of these signals, and the value of the following combination |
| WideModel | combination of several systems through files, variant sparseGridReduce: ProcessGroupWorker.cpp:491-526, 841-894, 966-1000, SparseGridWorker.hpp:786-1149 (extra sparse grids, sizes, reduction to the output group, reading, broadcast) |
| WideSystemModel | the same for whole systems: hierarchization, the exchange of WideModel on all ranks, dehierarchization: ProcessGroupWorker.cpp:491-535, 726-732, 841-894; TaskWorker.hpp:29-105 |
| MigrateModel | moving tasks to another group and filling new grids from the sparse grid: SparseGridWorker.hpp:627-656, 755-784; ProcessGroupWorker.cpp:366-411; ProcessManager.cpp:592-604. Null data pointers show up as failure |
| TcpModel | combination of two systems through the third level manager, with all processes of the third level groups: ProcessManager.hpp:505-526, 653-695; ProcessGroupManager.cpp:248-330, 376-490; ProcessGroupWorker.cpp:475-488, 734-792, 911-950, 1003-1022. Each call of both managers is one execution of the network of ThirdLevelModel; several grids per task, status messages and statistics are not modelled |
| TcpSystemModel | the same with hierarchization and dehierarchization on all ranks of both systems: ProcessManager.hpp:505-526; ProcessGroupWorker.cpp:475-488, 726-792, 1003-1022 |
| PlotModel | plot files and their readers: DistributedFullGrid.hpp:1407-1541; SparseGridWorker.hpp:752-784; vtk/DFGPlotFileWriter.hpp:123-175, 288-315; tools/errorCalc.cpp:103-134; tools/plot_raw_slice.py:11-32. Bytes of values are symbolic; the text of the headers is not modelled, only its numbers and length |
| CompressModel | compressed files: io/MPICompression.hpp:38-400. LZ4 is a parameter (any codec that meets the stated specification); its limits on the size of the input are not modelled |
| OutputModel | parallelEval: filling a grid of any level from the sparse grid and writing it (SparseGridWorker.hpp:627-645, 758-783, ProcessGroupWorker.cpp:567-583), any number of solutions, .raw files |
| CommRecoveryModel | MPISystem::recoverCommunicators and waitForReuse (MPISystem.cpp:483-689, 717-880): the world, spare and local communicators, ranks, reusable processes and the group list of the manager over any sequence of failures and recoveries, any arrival order of messages |
| WideChunkedModel | collectReduceDistribute with keepValuesInExtraSparseGrid, distributeChunkedBroadcasts, the exchange of sizes and files between systems in the variant chunkedOutgroupSparseGridReduce (ProcessGroupWorker.cpp:491-526, 841-894, 966-1000, SparseGridWorker.hpp:364-612, AnyDistributedSparseGrid.cpp:154-219): all systems, groups and processes of one file part; the requests of the broadcasts are not modelled |
| WideChunkedSystemModel | combineSystemWideAndWrite and combineReadDistributeSystemWide with hierarchization and dehierarchization in the variant chunkedOutgroupSparseGridReduce, on all systems and ranks (ProcessGroupWorker.cpp:491-535, 726-732, 841-894) |
| MinMaxModel | the report of the extreme coefficients per subspace: collection, reductions, file, and who is asked to take part (DistributedSparseGridIO.hpp:16-72, SparseGridWorker.hpp:412-414, 440-442, 1170-1179, ProcessManager.cpp:578-580); one sparse grid per process |
| CornerModel | corners, corner values and boundary flags of a distributed full grid (DistributedFullGrid.hpp:1655-1727) |
| StatsModel | time measurements, their JSON files, and the concatenated file (Stats.hpp:36-310, FileInputOutput.cpp:11-49); white space and escaping are left out |
| MonteCarloModel | interpolation at common points by two systems (ProcessManager.cpp:517-575, MonteCarlo.cpp:12-39), distribution of the points of a file (BroadcastParameters.cpp:50-78); the broker is that of ThirdLevelModel, the interpolation itself is a parameter (see InterpModel) |
| SimFTModel | detection of dead processes by the fault simulator (mpi_fault_simulator/MPI-FT.cpp:37-185, 854-1079, 1096-1512, MPI-FT_ULFM.cpp:55-78) as one reduction and broadcast over its tree; revoked communicators, non-blocking operations and the wrappers of the MPI functions are not modelled |
| ParamsModel | combination parameters: constructors, setters, archive and ownership of the basis functions (manager/CombiParameters.hpp:27-219, 368-396, 448-599), their way to the workers (mpi/MPIUtils.hpp:18-105, ProcessGroupWorker.cpp:676-678, 711-723); archives are token sequences, the Cartesian communicator of setCombiParameters is not modelled |
| TaskTransferModel | task objects, their IDs, archives and fault criteria (task/Task.hpp:43-192, 263, 379-408, fault_tolerance/StaticFaults.hpp, WeibullFaults.cpp:7-62, FTUtils.hpp:93-113); archives are token sequences, derived tasks, grids and load models are not modelled, times are integers |
| FullGridFileModel | serial full grid objects: constructor, element vector, file, printing and norms (fullgrid/FullGrid.hpp:165-211, 281-320, 394-398, 675-680, 711-717, 811-862, 871-929); archives are token sequences, the p-th root is taken by its specification, output formats and the plot file are not modelled |
| VtkModel | the VTK image one process writes of its part of a distributed full grid (vtk/PlotFileWriter.cpp:20-82); vtkImageData is taken by its specification, doubles are exact, the writers and the master file are not modelled |
| SimTestModel | testing and waiting for requests in the fault simulator (mpi_fault_simulator/Sim_FT_test.cpp, Sim_FT_wait.cpp, Sim_FT_waitall.cpp, Sim_FT_request_free.cpp); each test sees an arbitrary environment, statuses and the killing of the testing process are not modelled |
| HandshakeModel | blocking messages of the fault simulator between two processes (mpi_fault_simulator/Sim_FT_send.cpp, Sim_FT_recv.cpp with a given source, Sim_FT_probe.cpp, MPI-FT.cpp:404-422); the communicator is not revoked, processes die at the start of calls only, the real MPI buffers messages, polling is a step that is not possible yet |
| AnyRecvModel | receiving from any source in the fault simulator (mpi_fault_simulator/Sim_FT_recv.cpp:24-58, 75-96); each pass of the loop sees an arbitrary environment |
| ChunkFileModel | files with the values of a sparse grid, one per process (sparsegrid/DistributedSparseGridIO.hpp:74-93); values instead of bytes, files are written and read as a whole |
| RevokedAnswerModel | answers of the background operations of the fault simulator in a revoked communicator (mpi_fault_simulator/MPI-FT.cpp:272-320); probes find an arbitrary message that fits |
| MessagesModel | lists of tasks of manager and groups with their operations, norms (manager/ProcessGroupManager.cpp:23-53, 542-587, 655-681, 784-807, ProcessManager.cpp:220-243, 423-448, TaskWorker.hpp:66-124); messages that are received inside the arguments of a call (ProcessGroupWorker.cpp:206-225, 353-367), with any order of evaluation |
| SimFTNbcModel | completion of non-blocking collectives in MPI_Comm_free (mpi_fault_simulator/Sim_FT_comm_free.cpp:5-54, MPI-FT.cpp:494-618, 1434-1476, Sim_FT_ibarrier/ibcast/iallreduce.cpp) by the calls each process makes, buffers and requests are not modelled; bit flips (MPI-FT_bitflips.cpp:10-73), random numbers are any in range |
| SparseGridModel, CombineModel | sparsegrid/DistributedSparseGridUniform.hpp, DistributedFullGrid.hpp (extraction), manager/SparseGridWorker.hpp |
| ReduceModel, CombiStepModel | combicom/CombiCom.hpp, sparsegrid/AnyDistributedSparseGrid.cpp, manager/SparseGridWorker.hpp, manager/ProcessGroupWorker.cpp (combine) |
| InterpModel, GridCommModel | DistributedFullGrid.hpp (evaluation, norms, gathering, boundary, ghost layers), manager/InterpolationWorker.hpp |
| RankModel | mpi/MPISystem |
| FileModel, ExchangeModel | io/MPIInputOutput.hpp, manager/SparseGridWorker.hpp (file based exchange), manager/ProcessGroupManager.cpp (sizes) |
| ThirdLevelModel, NetModel | third_level, third_level_manager, manager/ProcessGroupManager.cpp (exchange) |
| ManagerModel, ReschedModel | manager/ProcessManager, manager/ProcessGroupManager, manager/ProcessGroupWorker.cpp (signals), rescheduler, loadmodel |
| SystemModel | manager/ProcessGroupWorker.cpp (combineAtOnce), manager/TaskWorker.hpp (hierarchization of all tasks), all processes of all groups together |
| FullGridModel | fullgrid/FullGrid.hpp (sizes, index conversions, getCoords, getLI, eval, add, gridEval), hierarchization/Hierarchization.hpp |
| FaultModel | fault_tolerance/FTUtils.cpp, LPOptimizationInterpolation.cpp, StaticFaults.cpp, manager/CombiParameters.hpp (maps of tasks, levels, coefficients), ProcessManager.hpp:726-789, ProcessManager.cpp:342-357 |

## Properties: model, proof idea, status

* **C01 Linear and multi-dimensional indices are a bijection.** Offsets, sequentialIndex and getVectorIndex as recursive functions over extents; round trip by induction over the dimension with Euclidean division. *TensorProps.v; proved.* Round trips, range, column-major formula and local/global conversion for all extents.
* **C02 Every grid point is owned by exactly one process.** Bounds of a part from the list of lower bounds, Cartesian rank numbering; existence and uniqueness of the owner by induction over the bound list. *PartitionProps.v; proved.* MPI_Cart_coords enters by its specification (row major, no reordering).
* **C03 The default decomposition is always valid.** Floor and ceiling of n*j/p as integer divisions; monotonicity. *DecompProps.v; proved.* Double arithmetic of the code is modelled by exact quotients.
* **C04 Downsampling a decomposition keeps every point on its process.** Exact ceiling division by 2^k; ownership is preserved by monotonicity of the ceiling. *DecompProps.v; proved.* All levels, boundary types and decompositions; double arithmetic modelled exactly.
* **C05 The level of a 1d point and its hierarchical predecessors.** getLevel through trailing zeros against an independent divisibility specification. *Level1dProps.v; proved.*
* **C06 Hierarchical subspaces tile the grid of every process.** Start, stride and count as computed by the code; a permutation of the local range. *SubspaceProps.v; proved.*
* **C07 Degree-of-freedom counts agree.** Closed forms, induction over level and dimension. *DofProps.v; proved.* Nodal, hierarchical and table-driven counts; integer overflow not modelled.
* **C08 The down set of a level contains exactly the dominated levels.** Recursive enumeration; membership, no duplicates, lexicographic order. *LevelSetsProps.v; proved.*
* **C09 Truncated sparse-grid level sets.** Recursion with the subset filter as coded; subsets as masks. *LevelSetsProps.v; proved.*
* **C10 Classical combination scheme is a partition of unity on every subspace.** Coefficients (-1)^p binom(d-1,p) over sum-constrained levels; counting identity by induction over the dimension. *CombiInterpProps.v, CombiSchemeProps.v, CombiUnchangedProps.v, CommRecoveryProps.v, CompressProps.v, CornerProps.v, MinMaxProps.v, OutputProps.v, WideChunkedProps.v, WideChunkedSystemProps.v; partial.* Proved for every lmin <= lmax except lmin = lmax, also with fault-tolerance grids. Refuted for lmin = lmax: the code stores a coefficient but no grid.
* **C11 Dummy dimensions of the classical scheme keep their level.** Re-insertion of dummy dimensions as coded. *CombiSchemeProps.v, MessagesProps.v, MonteCarloProps.v, ParamsProps.v, SimFTNbcProps.v, SimFTProps.v, StatsProps.v, TaskTransferProps.v; partial.* Proved for dummy dimensions that precede all others. Refuted in general: the i-th dummy dimension receives lmax[i] instead of lmax[dummyDims[i]].
* **C12 Coefficient computation terminates for schemes of any size.** Loop with an 8-bit counter (explicit mod 256) and fuel. *AnyRecvProps.v, ChunkFileProps.v, CombiSchemeProps.v, FullGridFileProps.v, HandshakeProps.v, RevokedAnswerProps.v, SimTestProps.v, VtkProps.v; partial.* Proved for at most 255 component grids. Refuted beyond: the loop counter is an 8-bit integer and wraps, so the loop never ends.
* **C13 Adaptive coefficients satisfy inclusion-exclusion.** In-place overwriting loop as coded; inclusion-exclusion over hypercube neighbours. *CombiSchemeProps.v; proved.*
* **C14 The adaptive scheme covers the requested range.** Level set of the adaptive scheme against the requested range. *CombiSchemeProps.v; partial.* Proved when lmax-lmin is the same in all dimensions. Refuted for anisotropic ranges.
* **C15 The down set regenerated from the active front is the scheme's down set.** Union of down sets as sorted set. *CombiSchemeProps.v; proved.*
* **C16 Splitting a scheme among systems loses and duplicates no grid.** Cut positions with rounding; concatenation of the slices is the input. *AssignProps.v; partial.* Proved whenever the fractions are non-negative and their sum deviates from 1 by less than half a grid of the scheme (in particular for an exact sum). Refuted for the tolerance 1e-3 that the code asserts. Doubles modelled by rationals.
* **C17 Distributing component grids among process groups is a partition.** Round robin by stepping, assignment from a file, greedy balancing; partition as permutation. *AssignProps.v; proved.* Round robin, assignment from file and greedy balancing; std::sort by its specification (any permutation).
* **C18 Hierarchization and dehierarchization in 1d are mutually inverse.** Kernels as loops over a mutable array; stencil-loop invariants, field arithmetic over Qc. *Hier1dProps.v; partial.* Proved for all six bases, boundary types, minimum levels and data (levels up to 28, the range of the powerOfTwo table) on the grids a basis is meant for. The refuted theorem shows why the restriction is needed: the non-periodic full weighting (and the biorthogonal basis dispatched to it) loses data on one-sided grids, which the code does not reject.
* **C19 Multi-dimensional hierarchization round trip.** Sweeps over all dimensions on all ranks; each sweep is inverted by its counterpart, sweeps in different dimensions commute. *HierNDProps.v; proved.* Whole distributed grids in any dimension; data condition suitableGrid is only about the non-periodic bases on one-sided boundaries (see C18). Rounding not modelled.
* **C20 Full-weighting and biorthogonal bases conserve mass.** Weighted sums per level, invariant under every step of the level loop. *Hier1dProps.v; proved.* Proved for the full weighting and biorthogonal kernels, periodic and not; any change of coefficients above lmin keeps the integral.
* **C21 Distributed hierarchization equals serial hierarchization.** Owner intervals, receive maps, arbitrary stale buffer; all values read by a kernel are own or received (dependency closure), then lifted to d dimensions. *DistHierProps.v, HierNDProps.v; proved.* One pole and whole d-dimensional grids; any two process grids and decompositions, serial being the special case of one process.
* **C22 Ghost exchange of hierarchization sends exactly what is received.** Send and receive maps computed by the loops as coded; both characterised by a hierarchical relation and shown to be mirror images. *DistHierProps.v; proved.*
* **C23 Sparse-grid storage layout.** State machine over the storage operations; invariant by induction over histories. *SparseGridProps.v; partial.* proved for all histories with totals below 2^32; refuted beyond (32-bit offset wraps around) and for sizes read from a file into an allocated sparse grid (data not released)
* **C24 Looking up subspaces while carrying a lower bound finds every level.** libstdc++ lower_bound with a carried position; a schedule is any ascending list per thread. *SparseGridProps.v; partial.* proved for threads that get ascending levels and sparse grids whose first level precedes all queries; refuted without the second condition (search starts before the first level) and for non-monotonic schedules, which OpenMP permits
* **C25 Scatter to and gather from the sparse grid are inverse.** Scatter and gather per process, layout of the buffer from C23. *SparseGridProps.v; proved.* for levels with the all-ones level first, sizes and total below 2^32, ascending threads
* **C26 Combining is a projection.** The complete combination step of all groups (C31) applied to any state; hierarchical values as functions of the point. *CombiStepProps.v; proved.* For every variant and every state reachable by computing and combining: consistent values are unchanged if the coefficients above every subspace add up to one (C26_projection); after any step the values are consistent, and a second step changes nothing (C26_idempotent); for the classical, fault-tolerant and adaptive schemes of the library the condition holds (C26_scheme_projection). Hypotheses: what the variants need (variantFits).
* **C27 Combination does not depend on the assignment of grids to groups.** Sums over permuted and partitioned lists of tasks. *CombiStepProps.v; proved.* Tasks assigned to groups in any two ways, with any variants, chunk sizes and orders of the reductions, have equal values after combining.
* **C28 Communication in chunks touches each value exactly once.** Loops over chunk boundaries with 32/64-bit conversions explicit; concatenation and bounds. *ReduceProps.v; partial.* Exactly-once for buffers and for lists of subspaces with fewer than 2^31 points each. With larger subspaces the uint32_t sum wraps (C28_wrap_refuted).
* **C29 Chunk size computation does not overflow.** Conversions to size_t and int explicit. *ReduceProps.v; partial.* The result is exact as long as it fits into an int (C29_chunk_size_partial); larger limits overflow (C29_overflow_refuted): 32 GiB in double precision give 0.
* **C30 Subspace communicators join exactly the groups that share a subspace.** Votes as bit masks, grouping by equal vote, communicators as member lists. *ReduceProps.v; partial.* Subspace communicators: exactly one per shared subspace, members exactly the groups with points, consistent among members. Outgroup: exact set of subspaces and sizes; a group without shared subspace does not join the communicator of all groups (C30_outgroup_refuted).
* **C31 All combination variants give the same result.** All four variants as programs of collective sums over explicit addresses; each result is characterised as the weighted sum over all tasks. *CombiStepProps.v; partial.* Every variant ends and gives the weighted sum over all tasks (C31_combination_step), in any order of the communicators, any chunk size; two variants agree at all points. Assumes variantFits: buffers below 2^31 elements, at most 256 groups, and for the outgroup variants that all or none of the groups share a subspace. Beyond: C31_large_buffers_refuted (int displacements), C30_outgroup_refuted.
* **C32 Distributed interpolation equals interpolation on the whole grid.** Contribution of every process, sum over the owners of the neighbouring points. *InterpProps.v; proved.* Levels 1..28 (tables), coordinates in [0,1], below 1 in dimensions with one-sided boundary (see C33). C32_grid_points: at grid points the stored value is returned.
* **C33 Interpolation at the upper domain end with periodic boundary.** Evaluation at coordinate 1. *InterpProps.v; partial.* False of the code for every periodic grid: the result at coordinate 1 is 0 (C33_upper_end_refuted).
* **C34 Distributed norms equal global norms.** Sums and maxima over a partition of the points. *InterpProps.v; partial.* Maximum norm and the weighted sum under the p-th root are proved to be those of the whole grid for every decomposition; the p-th root itself (floating point pow) is not modelled. For p = 1 the value is the exact integral for constant functions; for p = 2 the scaling is wrong (C34_two_norm_of_constant_refuted), as a comment in the code admits.
* **C35 World ranks map one-to-one to (group, local rank).** MPI_Comm_split with colours and keys as coded; explicit member lists. *RankProps.v; proved.* MPI_Comm_split, MPI_Group_incl and MPI_Comm_create by their specification.
* **C36 The output group has one process per local rank.** Both loops of getDiagonalRanks; file parts by a second split. *RankProps.v; partial.* The diagonal ranks are proved for all sizes. Several file parts are right where their number divides the number of processes per group and wrong otherwise (refuted: one communicator, different part numbers).
* **C37 Writing and reading a distributed file is the identity.** A file is a list of values; exclusive prefix sums, writes in any order. *FileProps.v; partial.* Round trip for every history of a new, replaced or not longer file, every order of arrival and every sizes below 2^31 values per process. Reduction for the buffers with equally many reads on all processes (partial, see C39). Refuted for a process with 2^31 to 2^32-1 values: the count is cast to int, nothing is written.
* **C38 Rewriting a shorter file can be read back.** Contents of an opened file with and without replacement. *FileProps.v; partial.* Refuted: an existing longer file keeps its length and the size check throws. Proved with replaceExistingFile=true.
* **C39 Collective reads are matched across processes.** Number of collective reads per process. *FileProps.v; partial.* Refuted in general. Proved: a process with n values enters ceil(n/buffer) reads and the operation returns exactly if these agree; with a buffer for all values: exactly if all or none have values. A buffer of 0 never returns.
* **C40 Files of other systems are reduced exactly once in any order of arrival.** Polling loop over token sets with an arbitrary oracle for the existence of files; removal by substring search on file names. *ExchangeProps.v; partial.* Every announced file is read exactly once for every sequence of answers to the existence queries; with reduction the result is the own plus all announced values (for buffers with equally many reads on all processes, partial, see C39), and the loop ends once all tokens exist. Refuted: the root of part 1 removes the files of parts 10 to 19 (substring search), other parts are safe up to ten parts; with overwrite the result depends on the order of arrival.
* **C41 Size reduction between systems finds the shared subspaces.** Minimum and more-than-one rules on uint32_t, files and managers. *ExchangeProps.v; partial.* Two systems: proved for files (writing, arrival order, reading included) and for managers. Three systems: proved for sizes below 2^32/3, refuted for 2^31 (uint32 sum wraps). The manager's number of values per worker is accumulated in int: proved below 2^31, refuted at 2^31.
* **C42 Third-level exchange between two systems.** Broker and two systems as sequential programs with queues, arbitrary interleaving; confluence plus an explicit schedule gives termination and results of every run. *ThirdLevelProps.v; partial.* Broker and two systems as message passing programs with arbitrary interleaving (proved for any sequence of rounds: combine, unify, exchange, file). Refuted parts: a process without values makes both managers throw; with several grids the expected size is divided by the number of grids.
* **C43 Manager assigns every task to exactly one group.** Transition system of manager and groups, arbitrary interleaving, invariant by induction over steps. *ManagerProps.v; partial.* Proved for every interleaving; refuted part: a group can end the first round without any task although there are as many tasks as groups.
* **C44 Signals are only sent to waiting groups.** Same transition system; the program that remains to be executed is part of the invariant. *ManagerProps.v; partial.* Proved for orderly sequences of calls (no doDiagnostics; interpolateValues and the like only after a call that waits). Refuted for doDiagnostics, whose status answers the next signal, and for interpolateValues called twice.
* **C45 Rescheduling preserves the set of tasks and their values.** Same transition system; counting argument over manager, wires and workers. *ManagerProps.v; proved.* The values of a task travel with the task (serialisation is not modelled). The moves must name known levels, each once.
* **C46 The rescheduler proposes valid and useful moves.** The iteration as coded over association lists. *ReschedProps.v; partial.* Valid moves, acceptance by the process manager and the bound on the largest load are proved. Refuted parts: a move can name the group the task is in already, and short durations divide by zero.
* **C47 The rescheduler compares against the average group load.** Average as coded against the average over groups. *ReschedProps.v; partial.* Refuted: the average is taken over tasks, and the quotient is truncated; proved only for one task per group.
* **C48 The load model averages exactly the last N durations.** Deque per task, invariant over histories. *ReschedProps.v; partial.* The window is proved for all histories and N >= 1. The prognosis is the average as long as the sum fits into an int; refuted beyond that and before the first report.
* **C49 Compensated summation does not change exact sums.** Kahan update over Qc. *SparseGridProps.v; proved.*
* **C50 Minimum and maximum coefficients per subspace.** Initial values of numeric_limits as rationals. *SparseGridProps.v; partial.* minimum proved (values up to DBL_MAX); maximum proved if some value is at least numeric_limits<double>::min(); refuted otherwise (initial value is the smallest positive number)
* **C51 The partition of sparse-grid unknowns among processes is complete.** Extents per process as coded; the sums telescope. *DofProps.v; proved.* With both boundaries only, as the code; all decompositions and level sets.
* **C52 Gathering a distributed grid reproduces the global grid.** Placement of subarrays, any order of arrival. *GridCommProps.v; proved.* The full grid has the distributed grid's sizes; any order of arrival.
* **C53 Mirroring the lower boundary to the upper boundary.** Copy between layers through MPI_Cart_shift. *GridCommProps.v; proved.* Including one process in the dimension.
* **C54 Powers of two from the table.** Tables as coded (29 initialisers, 30 entries). *DofProps.v; partial.* Refuted at index 29: the arrays have 30 entries and 29 initialisers. Proved for 0..28.
* **C55 Global linear indices convert to local linear indices.** Local and global offsets as coded. *TensorProps.v; partial.* Refuted for proper parts of a grid; holds when the process owns the whole grid.
* **C56 All component grids list the points of a shared subspace in the same order.** Enumeration of a subspace on two grids with the same decomposition up to downsampling. *SubspaceProps.v; proved.*
* **C57 The hypercube level generator visits every dominated level.** The generator's loop as coded. *LevelSetsProps.v; partial.* Refuted in general (levelUpTo = (1,2)); proved for all inputs where some level is smaller than the first one or all are equal.
* **C58 Predicted subspace extents match the points a process owns.** Predicted extents against counts of owned points. *DofProps.v; partial.* Refuted: the comparison with >= counts the middle (last) point for the process before it when a process starts exactly there. Proved for all other decompositions and all levels > 1.
* **C59 A scheme with lmin = lmax consists of that one grid.** Early return of the constructor. *CombiSchemeProps.v; partial.* Refuted: the component grid is missing.
* **C60 The stored down set of a classical scheme is sorted and complete.** Levels after re-insertion against the sorted down set. *CombiSchemeProps.v; partial.* Sortedness proved for all schemes; completeness proved without dummy dimensions and refuted with them.
* **C61 The conjoint set is a set, closed downwards.** std::map of counts, std::find over the list built so far. *AssignProps.v; proved.*
* **C62 Cost-balanced assignment is balanced.** Potential argument over the greedy loop. *AssignProps.v; proved.* Loads below 2^63-1 as in the code's sentinel.
* **C63 Pole traversal visits every local point exactly once and slices are aligned.** Nested loops and division based loop enumerate the same poles; subarray slices are read by pole number. *HierNDProps.v; proved.* Slices follow the MPI standard's order of subarray elements.
* **C64 Interpolating the combined solution.** Compensated sums over tasks, processes and groups. *InterpProps.v; proved.* Exact arithmetic: compensated summation equals plain summation.
* **C65 Ghost layers hold the layer below the own box.** Extents and contents of the received buffer; matching by symmetry of MPI_Cart_shift. *GridCommProps.v; proved.* Extents, contents and matching of sends and receives.
* **C66 Messages between system and broker arrive however the bytes are delivered.** Bytes with arbitrary partial send(2) and recv(2). *NetProps.v; partial.* Proved for messages below 2^31 bytes; longer ones are refuted (std::stoi).
* **C67 The broker forwards data unchanged.** Forwarding loop on byte streams. *NetProps.v; proved.*
* **C68 Binary data is received and added correctly however the bytes are delivered.** The receive loop with its mixed signed and unsigned arithmetic; exact condition on the pieces. *NetProps.v; partial.* Proved exactly when every recv(2) reaches the end of an element it found started; otherwise refuted: the receive buffer is read before its beginning.
* **C69 Data of a system of the other byte order is converted.** reverseEndianness as coded. *NetProps.v; partial.* Refuted: reverseEndianness reads byte sizeof(T).
* **C70 Manager and groups never wait for each other forever.** Progress from every reachable state and a decreasing measure. *ManagerProps.v; proved.* For orderly sequences of calls as in C44; termination from any state.
* **C71 The averaging load model keeps every reported duration.** Durations in memory and in the file, invariant over histories. *ReschedProps.v; partial.* Nothing is lost (proved); the average is taken over the durations since the last write only (refuted for all durations, exact window proved).
* **C72 A combination of the whole system combines hierarchical coefficients point by point.** All ranks and groups together; the parts of one reference decomposition make the combination of each rank a combination of the same geometric points; induction over histories. *SystemProps.v; proved.* One rank per position in all groups forms the global-reduce communicator; one grid per task; values exact (Qc). The variants need buffers below 2^31 elements and at most 256 groups, and the outgroup variants that all groups or none share a subspace (C30, C31).
* **C73 The result of a combination does not depend on the parallel distribution.** Both results are the same function of the values at the points (C72), which mentions neither processes nor groups. *SystemProps.v; proved.* In exact arithmetic; both systems meet the requirements of C72.
* **C74 With hat functions a combination keeps samples of a function.** Closed form of the hat coefficients in one dimension by position; agreement at common points is kept by each dimension, then partition of unity and round trip. *SystemProps.v; proved.* Bases Hat and HatPeriodic only: with full weighting or biorthogonal bases samples are not kept in general (Example C75_ex).
* **C75 A second combination changes nothing.** After a combination coefficients of tasks agree at common points of sparse-grid subspaces; partition of unity and round trip. *SystemProps.v; proved.* The periodic full weighting and biorthogonal bases need a one-sided boundary here (on two-sided grids they need periodic data, C18).
* **C76 Elements, multi-indices, coordinates and level-index pairs of a serial full grid name the same points.** The three loops are shown equal to the index functions of C01; halving an index until it is odd by strong induction. *FullGridProps.v; proved.*
* **C77 Evaluating a serial full grid gives the multilinear interpolant.** The cell search by cases on the position; the sum over the corners factorises dimension by dimension into a sum over all points. *FullGridProps.v; partial.* Proved: the exact function eval computes (piecewise linear, continued linearly beyond the outermost stored points) for every coordinate, except coordinates above 1/2 in a dimension other than the last that has one point (level 1 without boundary); equal to the interpolant between the stored points, at all coordinates with full boundary, at all grid points for every boundary type; 0 outside. False: C77_one_point_refuted (operator precedence at FullGrid.hpp:494 subtracts the coordinate from the product), C77_one_sided_refuted (with one-sided boundary the last cell extrapolates instead of returning to the first point), C77_no_boundary_refuted (without boundary the value does not vanish at the boundary).
* **C78 Adding and resampling serial full grids.** The loop over the elements changes each once; the direct path agrees because own points are reproduced (C77). *FullGridProps.v; partial.* For every point whose coordinates are not above 1/2 in a dimension (other than the last) in which the evaluated grid has one point: there eval itself is wrong (C77). Values are those of the continued function of C77.
* **C79 Serial hierarchization agrees with the distributed one and is undone by dehierarchization.** Each kernel is a chain of level steps with a closed form per position; one pole equals the distributed pole operation, then all poles of a dimension, then all dimensions. *FullGridProps.v; partial.* Boundary types 0 and 2. With a one-sided boundary it is false: C79_one_sided_refuted (the sweeps assume 2^L + 1 points; in one dimension nothing is done).
* **C80 After faults the recomputed coefficients avoid every failed grid.** The dimensions are reduced to those that vary; the matrix is the product with the inverse of the down-set incidence matrix, whose rows are the inclusion-exclusion signs; the rows of failed grids are the constraints. *FaultProps.v; proved.* Proved for the integer program and for its relaxation; GLPK itself is taken by specification (it returns a feasible or optimal solution). The scheme must have at least one dimension in which lmin and lmax differ.
* **C81 After faults no subspace is counted more than once.** The inverse matrix undoes the summation over finer levels, so the sum of the coefficients is the variable of the subspace; raising a variable that no constraint touches would improve the objective. *FaultProps.v; partial.* Partial: proved for schemes that store every level of their down set; refuted without that (classical scheme without the grids for fault tolerance: the coefficients add up to 2).
* **C82 Recomputed coefficients of the manager form a combination.** The coefficients of the adaptive scheme are shown to be those of the classical one (alternating binomials), so makeFaultTolerant adds exactly the missing levels of the down set; then C81 through the parameter maps. *FaultProps.v; partial.* Partial: proved for the same span in all dimensions; refuted for different spans, where the scheme contains grids twice with coefficients 1 and 0 and the program's constraint matrix is not initialised.
* **C83 Failed tasks are split into redistributed and recomputed ones.** The two lists are a sorted difference and its complement; the new coefficients are read back through the maps. *FaultProps.v; partial.* Partial: proved if a grid of the two finest diagonals fails; refuted otherwise (failed grids of coarser diagonals keep their coefficient and are neither redistributed nor recomputed).
* **C84 restoreCombischeme restores the coefficients.** Loop invariant over the grids of the scheme: all earlier grids have their coefficient, identifiers do not change. *FaultProps.v; partial.* Partial: proved for schemes without repeated grids whose grids all belong to tasks, in particular for equal spans; refuted otherwise (an unknown level gets identifier 0 and overwrites the coefficient of task 0; a repeated grid ends with coefficient 0).
* **C85 Static faults strike exactly the listed ranks and iterations.** Induction over the list of iterations from a position. *FaultProps.v; partial.* Partial: proved if there is a rank for every iteration; refuted otherwise (read past the end of the list).
* **C86 Compensated summation bounds the rounding error independently of the number of grids.** The compensation is the sum of three rounding errors; sum minus compensation is the exact sum up to second-order terms, by induction over the summands with polynomial bounds; the grid follows element by element from a run that collects the summands. *KahanProps.v; proved.* The rounding is any function with relative error u (shown to exist: truncation to p binary digits); overflow and gradual underflow of products are not modelled.
* **C87 A sparse grid starts each summation with zero compensation.** Unfolding of the allocation functions; the witnesses are evaluated with 7-digit truncation. *KahanProps.v; partial.* Partial: proved for creation after deletion, for setZero and, with elements of at most 8 bytes, for allocateDifferentSubspaces; refuted for complex elements (createKahanBuffer clears sizeof(pointer) bytes per element) and for createSubspaceData on existing storage (the old compensation is kept).
* **C88 Recovery after failed groups terminates and leaves every task in exactly one group.** Invariant of every execution: the effect of the rest of the program on each group (simulated) gives agreeing lists of manager and workers, and these together with the tasks still to be given are a permutation of the target; a measure of the program and the pending signals decreases with every step. *RecoveryProps.v; proved.* No further group fails during the recovery, and MPISystem::recoverCommunicators is only visible by its result.
* **C89 The combination after a fault uses the recomputed coefficients.** The combined value is invariant under permutation of the tasks; C88 gives the tasks at the end; the witness uses the optimal solution of the linear program. *RecoveryProps.v; partial.* Refuted: the workers combine with Task::getCoefficient, which no function changes; CombiParameters are stored but not read. Proved instead: the combination is the sum over the tasks that did not fail and the recomputed ones with their original coefficients; for levels (1,1) to (3,3) with the constant solution 1 the combination is 0 instead of 1.
* **C90 No task is lost by faults and recovery.** C83 (now with a permutation) divides the failed tasks, C88 applies; the witness is that of C83 followed through the recovery. *RecoveryProps.v; partial.* Partial: proved if a grid of the two finest diagonals is among the failed ones; refuted otherwise: the failed task disappears if the groups cannot be restored, and contains zeros with its old coefficient if they can.
* **C91 With mass-conserving basis functions the combination keeps the integral.** The trapezoidal sum of a grid equals the one over the coarsest points of its hierarchical coefficients: in one dimension by the sums of C20, in several by commuting the sums of other dimensions with the pole operators. The coarsest points are common to all tasks, where the combination (C72) is linear. *SystemMassProps.v; proved.* Values are exact rational numbers. With hat functions the integrals of the grids differ after the combination (second part of C91_ex).
* **C92 Several systems that exchange their sparse grids through files combine as one system.** The sizes the systems agree on follow from C41 at every process; the invariant of all reachable states is that every system's sparse grids have these sizes and its tasks their first grids. In a combination, the buffers of the output group hold the system's weighted sums (as in C31); reading adds the files of the others in any order (C40), which are the sums of the other systems at the common subspaces; subspaces that only one system has are complete already. *WideProps.v; proved.* Variant sparseGridReduce; hierarchization before and dehierarchization after the exchange are added in C93. More than three systems throw (see C41). That processes need the same number of reads and that old files are not longer are necessary: see C39_unmatched_refuted and C38_shorter_refuted.
* **C93 Combining several whole systems through files, with hierarchization, equals the combination technique on all their tasks.** The parts of the tasks on every rank form a reachable state of C92; hierarchization and dehierarchization of all systems are the sweeps of C19/C22, so the three steps are put together as in C72, with all tasks of all systems. Comparison with one system, projection, second combination and integral then follow from the same lemmas as C73-C75 and C91. *WideSystemProps.v; proved.* Variant sparseGridReduce. All systems have the same number of processes per group and the same decomposition, as the files require.
* **C94 Tasks that move to another process group and output grids are filled with the combined solution.** Invariant of all reachable states: the tasks are a permutation of the first ones, all sparse grids have the sizes of all tasks, and after a combination each holds the weighted sum of all hierarchized tasks at every subspace. Extraction into a grid of any level then gives the combined coefficients (the positions of the points of a subspace are the same in every grid, C25), and dehierarchization is the sweep of C22. The combination after moves is C31 on the same sizes. Refutations: one system of three tasks, computed. *MigrateProps.v; partial.* Proved for sparseGridReduce. The _refuted theorems show the loss of data with the other reductions, before the first combination and outside the sparse grid.
* **C95 Two systems combined over the network get the combination of all their tasks.** The network of one call is C42; its result fixes the data of both systems. The sizes agreed on follow from the exchange of C41; the invariant of all reachable states is the one of C92 with these sizes. Each process sends the weighted sums of its system, block by block, the manager adds the block of the other system, so the value at a shared level is the sum over both systems; levels not shared are only in the tasks of one system. An empty block stops the third level manager, by which no execution can be complete. *TcpProps.v; partial.* The combination is proved under the premise that every process has points to exchange (exchangedPoints > 0); otherwise it is refuted. The start is proved for less than 2^31 points in all; beyond, the check of the totals is refuted.
* **C96 Combining two whole systems over the network is one combination of all their tasks.** Two tasks with levels L and M on one rank: the grid of the levels min(L,M) also has a valid decomposition, so the rank has one of its points, which C56 gives a place in both tasks. The rest is put together from C95 and the sweeps as in C93. *TcpSystemProps.v; proved.*
* **C97 A plot file holds every value of the distributed grid at its global linear index.** All writes of all processes are one list of (element, value) pairs, sound and complete for the grid by C02; bytes of such a list by induction. *PlotProps.v; partial.* Positions of all values, dimension byte and up to six extents are proved for all grids. Refuted: errorCalc reads the dimension as an int and gets dim + 256 * first extent, for every grid (the header was changed to one byte when DimType became uint8_t); six ints are written whatever the dimension, so below six dimensions memory behind the vector gets into the file; the file is not truncated, a longer old file keeps its end and plot_raw_slice refuses it; plot_raw_slice takes the last dimension as the fastest and finds the values of other points.
* **C98 Plotting several grids gives one file per grid.** The inserted number can be recovered from the name (cancellation of the common end, decimal numbers are injective); induction over the grids. *PlotProps.v; partial.* Proved for names with a dot that do not end in .vtk. Refuted: names ending in .vtk and names without a dot are the same for all grids, so later grids overwrite earlier ones; a dot in the directory part gets the number ('./out/grid.raw' becomes '_0./out/grid.raw').
* **C99 VTK output describes the grid.** Same list of writes; the spacing is the entry of the table of inverse powers of two; first and last local point are the corners of the box. *PlotProps.v; partial.* File contents and pieces proved for all grids. Coordinates proved for two-sided boundaries; refuted for one-sided boundaries (spacing 1/(2^l - 1)) and without boundary points (also the origin), as a TODO in the code admits.
* **C100 Values written to a compressed file are read back and reduced value by value.** The strings of the processes are concatenated by C37; sizes in the header give position and size of every frame; induction over the rounds of the decompressor. *; partial.* LZ4 is taken by specification (lossless, header frame of constant size, decompresses as much as there is room for). Reading back is proved if every process has a value; refuted otherwise (one round of decompression instead of two is taken for an error). Reducing is proved for values whose size divides that of the buffer, in particular 4 and 8 bytes, or if the content fits; refuted for 16 bytes (complex of double) and more than 8421544 bytes on a process, where the decompressor writes beyond the buffer.
* **C101 The interpolated combined solution has the right value at every point of every component grid.** By C64 the result is the sum of coefficient times interpolant; at a point of grid T the interpolant on L equals the one on min(L,T) extended, and the coefficients telescope to one over all levels below T (induction over dimensions). After the combination all tasks have the same surpluses at common points, hence the same values. *; proved.*
* **C102 A combination gives every task the interpolated combined solution, and this solution does not change.** The interpolant on grid U, sampled on grid T, has the surpluses of U at common points and zero at the others (a piecewise linear function has no surplus on finer levels; one dimension at a time); so the combined surpluses are those of the combined interpolant, and hierarchization is invertible. Unchanged everywhere: the combination of the interpolants of its own samples on all grids is the function itself (telescoping, as in C101). *; partial.* Proved where the levels of the tasks differ only in hierarchized dimensions; C102_not_hierarchized_refuted gives a setup where a dimension is left out of the hierarchization and the combination changes the interpolated solution.
* **C103 parallelEval writes the combined solution.** C94 for a grid that has values already: extraction overwrites the subspaces that are in the sparse grid and in a task and leaves the others; dehierarchization as in C19. With hat functions the combined coefficients are the surpluses of the combined interpolant on the grid (C102 with any level instead of that of a task); place in the file by C97. *; partial.* Proved for one solution and for several ones if tasks and sparse grid have all subspaces of the level (VSparseGrid). C103_second_grid_refuted: two equal solutions on a level with other subspaces give different files. C103_other_variants_refuted: with VSubspace and VOutgroup the file of a group lacks the subspaces of the other groups.
* **C104 Recovery of the communicators after failed processes.** Invariant over all recoveries: living processes, world, ranks, local communicators, reusable ranks and the manager's list agree. The messages received are a permutation of those sent, so the processes left after the assignment do not depend on the order in number; the split by world rank as key puts the new processes in the places of the failed ones, or leaves the living blocks in order. *; proved.*
* **C105 Failed groups are restored when enough processes wait.** With one failed group the condition of C104 is that of the group; counterexamples by computation from reachable states. *; partial.* Proved if one group has failed. C105_several_groups_refuted: four groups, one waiting process, two groups with one failed process each: both are given up. C105_dead_waiting_refuted: a waiting process fails, the manager waits forever for its rank (the code has a TODO at MPISystem.cpp:771).
* **C106 Several systems combine through files in chunks as one system.** The three calls of setOutgroupCommunicator make all groups of a system have all subspaces that two of its groups have, those the output group takes over included, so that all groups take part in every chunk. Each chunk is a combination of its own subspaces (C31); the copies to and from the extra sparse grid are inverse on the kept subspaces; the files add the sums of the other systems (C42); a subspace of the extra sparse grid that is not broadcast is one that no other group has. *; proved.* Hypothesis: every process has points of a subspace that two systems have; otherwise the output group throws because its extra sparse grid has no data (SparseGridWorker.hpp:455-475).
* **C107 Combining several whole systems through files in chunks, with hierarchization, equals the combination technique on all their tasks.** In every dimension the coarser of the two tasks has a point on the rank, which is also a point of the finer one on the same rank (downsampled decompositions, C04) and has a level of both; the point with these coordinates lies in a common subspace. The rest as in C93, with C106 for the exchange. *; proved.* Hypothesis shareTasks: two systems have a task each such that all levels below both are levels of the sparse grid.
* **C108 The report of the extreme coefficients per subspace.** Invariant over all sequences of operations: the accumulators of a process are those of the states it collected since its last report (C50). The reductions within and across the groups are element-wise and keep the extremes of the union. Counterexamples by computation. *; partial.* Lines and minima proved in full (C108_report), and exactly when a report may be requested (C108_defined). Maxima only for subspaces with a value of at least 2^-1022 (C108_max_partial); false otherwise, since maxima start at numeric_limits::min() (C108_max_refuted). Through the manager the report is that of the workers with one group; with several groups only the last one is signalled and no file is written (C108_manager_no_file, C108_manager_refuted). A second report after a chunked combination reads deleted data (C108_twice_refuted).
* **C109 Corner values and boundary flags of a distributed full grid.** The recursion from the left is a tensor product from the right; bits by induction over the dimensions. A corner has exactly one owner (C02), so the sum over the processes has one summand; local indices convert by C01. *; proved.* Distinctness of the corners for sizes of at least two (otherwise first and last index agree).
* **C110 Time measurements: the files are complete JSON and every event is reported once.** The counting and the flag based placement of commas both equal a separator between elements. The gathered parts fill the buffer from left to right. Invariant over all sequences of operations: the finished events of a name are the intervals of the history, sorted by their ends, and those reported so far are the ones that ended by the last write. Counterexamples by computation. *; partial.* C110_duration_partial needs TIMING; without it the event is erased and the largest number is returned (C110_duration_refuted). With equal clock values an event is never reported (C110_clock_refuted); nested events of one name violate an assertion or lose one of them (C110_nested_refuted). Strings are assumed not to need escaping.
* **C111 Monte Carlo interpolation by two systems: common points, the same sums, no deadlock.** A step that is not a choice of the manager commutes with every other step, so it is enough to follow one interleaving for each choice (as in C42); the states of both systems are followed symbolically through both exchanges. Serialization by induction over the points. Counterexamples by computation. *; partial.* If one system was compiled with assertions and the other one without, the former waits forever for its coordinates to be sent back (C111_mixed_builds_refuted). C111_broadcast_partial needs fewer than 256 dimensions, since DimType has 8 bits (C111_broadcast_refuted), and fewer than 2^31 numbers. Different numbers of points fail the assertions of recvData.
* **C112 Fault simulator: all living processes learn of the same dead processes.** Ranks relative to the root are a bijection, in which the parent of c is (c-1)/k. Ancestors decrease, so subtrees of different successors are disjoint and together contain all processes; the reduction is a sum over the subtree by mutual induction over the executions, whatever the order. The list of dead processes only grows, so that equal lengths mean equal lists. Counterexamples by computation. *; partial.* C112_tree_partial and C112_progress need (n-2)/6 + root < n, as for root 0 (C112_root_zero): predecessors are not wrapped around, so with the last process as root (Root_Rank -1) messages go to ranks that do not exist (C112_tree_refuted, C112_no_result_refuted). MPI_Comm_agree reads a vector that is empty on living processes, and a false flag gets lost in the reduction (C112_agree_refuted). Revoked communicators and the background operations are not modelled.
* **C113 Bit flips of the fault simulator hit exactly the drawn number of bits.** The list of positions stays injective under swaps, and positions drawn earlier are not drawn again; induction over the loop with the bits as invariant. For a given set the random numbers are constructed. *; partial.* Holds for arrays of less than 2^26 ints; for larger ones the number of bits overflows (C113_large_refuted). The distribution of the random numbers is not modelled.
* **C114 Fault simulator: all processes call the same non-blocking collectives before a communicator is freed.** All lists are prefixes of one sequence, so that the longest has all others as prefixes (C112_reduce gives its rank); record and call are inverse for the supported collectives; the message by C112_same_knowledge and C112_nbc_round_trip. Counterexamples for all arguments. *; partial.* C114_all_complete_partial: for barriers and for broadcasts of char, int and double. Missing: MPI_Iallreduce, which does not store its count, so that a process that has not called it ends with an error (C114_allreduce_refuted), and other datatypes, for which a broadcast of ints is started (C114_datatype_refuted). The exchange of the list between the root and the process with the most calls is taken as a message; MPI_Waitall itself is not modelled.
* **C115 The norms that the manager reports belong to the right tasks.** Invariant over all reachable states: ids of all groups are different, and both lists of every intact group are equal; the first task of a level and the first task of its id are then the same. The norms are a fold of insertions with fresh keys. *; proved.* Tasks are identified by their ids; the status of the groups and the messages of other commands are in C43, C44, C70, C88. Exact arithmetic.
* **C116 File names that the manager sends arrive at the parameters they are meant for.** Induction over the order of evaluation: the k-th evaluated argument gets the k-th message. With different names the arguments determine the order. *; partial.* The arguments receive messages inside one function call. Only if they are evaluated from left to right do the names arrive at their parameters (C116_left_to_right_partial); in every other order different names are mixed up (C116_names_refuted). From left to right, in turn, the group waits for the coordinates while the manager still waits for the name to be received, if the send is not buffered (C116_interpolation_refuted, C116_interpolation_partial for buffered sends). There is no order that is right for all (C116_no_order_refuted).
* **C117 All workers get the combination parameters of the manager.** Each reader is shown to undo its writer with any rest behind it; the archive is the concatenation. Maps need different keys, which all operations keep. The master's archive is again one of good parameters, so the others get the same. *; partial.* getID and getCombiDict are the exception: levelsToIDs_ and combiDictionary_ are not in the archive, so at the workers every level has the ID 0 and the dictionary is empty (C117_levels_refuted). C117_all_workers_partial has all other queries. Archives are sequences of tokens, shorter than 2^31 characters.
* **C118 The basis functions of combination parameters are those that were set and stay alive.** Invariant of all operations: the bases are alive and different from each other. Deleting them and storing new ones leaves other positions of the heap alone. *; partial.* Proved for other objects that do not share pointers. CombiParameters is copied with its pointers and setHierarchicalBases deletes the old bases, so a copy made before (such as the one in ProcessManager) is left with deleted basis functions, cannot be sent, and cannot get new ones without deleting twice (C118_copy_refuted).
* **C119 A task is the same task on every process it is sent to.** Invariant: all IDs are below the counter of the manager, and objects with the same ID are equal up to the times of their criteria. Every object after a step comes from one before it or is the new one. *; partial.* Everything but the times of random faults is proved in full. WeibullFaults does not write the time of the fault and the start, so a criterion that was initialized before it was sent fails at once at the receivers (C119_weibull_refuted); it is right if the receivers initialize it (C119_weibull_partial). Members of derived tasks, grids and the load model are not modelled.
* **C120 A serial full grid survives its file and prints its points in order.** The archive is the concatenation of the members, each reader undoes its writer. Lines: the loop over rows of a fixed length is the loop over all positions, by induction over the number of rows, twice for three dimensions. *; partial.* Everything but the basis function is proved in full. The constructor that reads a file ignores its basis argument and leaves the pointer uninitialized (C120_basis_refuted).
* **C121 Norms of serial full grids bound the values and normalizing gives norm one.** Powers are strictly monotone for numbers that are not negative, so roots are unique and a value above the norm would have a power above the sum. Scaling a vector scales the sum of the powers by the power. *; partial.* Proved for all grids that are not zero. normalizelp divides by zero if all values are zero (C121_zero_refuted). Where the p-th root is not rational the model has no result.
* **C122 A VTK image of a distributed full grid has the value of every local point at its coordinates.** The loop over rows is the loop over the first n0 * n1 positions. The tuple of (i, j) is at i + n1 * j, the value of (j, i) at j + n0 * i. Inverses are injective, which gives the mesh width. *; partial.* Proved: in two dimensions there is a tuple for every point, in the order of the grid; positions are right where the process has 2^L + 1 points per dimension (C122_positions_partial), and only there (C122_spacing_iff). Refuted: the extents are reversed but not the tuples, so values are at the right points exactly if swapping the dimensions does not change them (C122_values_iff, C122_values_refuted); in three dimensions only the first slice is written (C122_three_dimensions, C122_three_dimensions_refuted); in one dimension the loop reads past the sizes (C122_one_dimension_refuted). The VTK library is taken by its specification.
* **C123 Waiting for a simulated request succeeds only with a living partner and reports every known failure.** Induction over the environments of the tests, first for a completed request, then for a new one: either some test sees a bad environment, or the operation completes at some test and a later one finds the message. *; partial.* Proved in full for new requests of Isend and Irecv. The last sentence is refuted: the test of a collective operation with a dead process returns an error without the flag, so that waiting for it does not end (C123_collective_refuted); waiting for a request that is complete does not end, and testing a request again after an error before its completion follows the null pointer (C123_again_refuted); Waitall erases elements of the set it iterates over (C123_waitall_refuted). What background operations and the real MPI do is an arbitrary environment; statuses and the killing of the testing process are not modelled.
* **C124 Blocking messages of the fault simulator arrive between living processes and find out dead ones.** The states that can be reached are listed for all tags and values, and every step of either process is shown to stay in the list; the claims are read off the list. *; partial.* Sending and receiving is proved in full for two processes on a communicator that is not revoked. Probing is refuted: the request has the tag of the message but the sender looks for the tag with TAGOFFSETALIVE added, so neither Probe nor Send ever returns (C124_probe_refuted). MPI_ANY_SOURCE, revoked communicators and more than one message at a time are not modelled.
* **C125 Receiving from any source in the fault simulator reacts to failures, messages and revoked communicators.** Induction over the passes of the loop: all passes before the return see nothing to react to, the last one determines the result. *; partial.* All but the last sentence is proved in full. The call inserts MPI_ANY_SOURCE into the dead ones and not the process that said it is dead (C125_dead_refuted). From which process the real receive takes the values is not modelled.
* **C126 Values of a distributed sparse grid written to one file per process are read back.** A name splits uniquely at the last character that is not a digit; a file changes only by writing to its name. For all ranks: induction over the writes, the changes and the reads. *; partial.* The first two sentences are proved in full, the first for prefixes that do not end in a digit; these have different files. Prefixes that end in a digit can share files, and without assertions a file of another size is accepted; a shorter one leaves old values (C126_prefix_refuted).
* **C127 In a revoked communicator of the fault simulator nobody waits for an answer.** A call takes at most one status message and one reduction; each claim is a count that one call keeps, or a measure that it decreases (an alive message counts twice). *; partial.* All but the last sentence, a remark in the code, is proved in full. A process can get answers of others this way, which it drops (C127_remark_refuted).

## Trusted base

* Coq's kernel (8.16.1), including `vm_compute` for closed computations in examples, tables and refutations.
* `Print Assumptions` is executed for every theorem at the end of each properties file; every one answers
  "Closed under the global context": no axiom is used, neither of the project nor of the standard library.
  (The library files that are loaded declare `Coq.ssr.ssrunder.Under_rel.*`, parameters of a module type of the standard
  library; no theorem depends on them.)
* The correspondence between the C++ source and the model files, by the citations in the comments, and the
  specifications of MPI, POSIX and the C++ library listed above.
* Seeded errors (`seeded/LOG.jsonl`) test that theorems fail when the modelled program is changed.

## Modelled with simplifications

* Values: exact rationals; complex numbers behave componentwise. Coordinates are exact. The p-th root of norms is not
  taken.
* Integer overflow is modelled where a property is about it (offsets of the sparse grid, chunk sizes, counts of files,
  lengths of messages, durations, table indices), elsewhere integers are unbounded.
* Assertions are not part of the behaviour (release build); where an assertion states the precondition, the theorem has
  it as hypothesis.
* The sparse grid has one level set and one grid per process (`numGrids = 1`) except where a property is about several.
* Tasks are opaque for the manager: identifiers and levels. Serialisation keeps the task unchanged.

## Not modelled

Floating-point rounding (except in C86 and C87, where compensated summation is analysed with any rounding of relative error u); MPI implementation behaviour and failures of MPI calls; HDF5, VTK and LZ4 libraries (LZ4 by specification in C100); boost
serialization; the GLPK solver (the linear program of the fault-tolerant coefficients is modelled, its solver taken by specification); the MPI fault simulator; statistics and timing; the
selalib interface; the examples.
