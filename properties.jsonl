{"id": "C01", "title": "Linear and multi-dimensional indices are a bijection", "statement": "For a full grid of any extents, converting a multi-index to a linear index and back returns the same multi-index, converting a linear index in range to a multi-index and back returns the same linear index, and every linear index produced lies in [0, number of points).", "quantifier": "all dimensionalities, all extent vectors, all indices in range", "why_tests_cant": "The index space is unbounded in dimension and extents; a test fixes a handful of grids.", "anchors": ["src/fullgrid/Tensor.hpp: TensorIndexer::sequentialIndex, getVectorIndex, size", "src/fullgrid/DistributedFullGrid.hpp: getGlobalVectorIndex, getGlobalLinearIndex, getLocalVectorIndex, getLocalLinearIndex"]}
{"id": "C02", "title": "Every grid point is owned by exactly one process", "statement": "For every valid decomposition, each global index belongs to the half-open box [getLowerBounds(r), getUpperBounds(r)) of exactly one rank r, getPartitionCoords returns the coordinates of that rank, and the local sizes add up to the global number of points.", "quantifier": "all dimensionalities, all valid decompositions, all process grids, all grid points", "why_tests_cant": "Decompositions are user-supplied vectors of arbitrary length; tests try a few regular ones.", "anchors": ["src/fullgrid/DistributedFullGrid.hpp: getLowerBounds, getUpperBounds, getPartitionCoords, DistributedFullGrid ctor", "src/mpi/MPICartesianUtils.hpp: getRankFromPartitionCoords, getPartitionCoordsOfRank"]}
{"id": "C03", "title": "The default decomposition is always valid", "statement": "For any number of points n and any number of processes 1 <= p <= n, getDefaultDecomposition (forward or backward) yields lower bounds that start at 0, are strictly increasing and stay below n, so every process owns at least one point; for p > n it throws.", "quantifier": "all point counts, all process counts, both rounding directions", "why_tests_cant": "Needs all pairs (n, p).", "anchors": ["src/utils/DecompositionUtils.hpp: getDefaultDecomposition"]}
{"id": "C04", "title": "Downsampling a decomposition keeps every point on its process", "statement": "When a decomposition given for a reference level is downsampled to a coarser level, a point of the coarse grid belongs to process r exactly if the point of the reference grid at the same coordinate belongs to process r, for grids with and without boundary points.", "quantifier": "all reference levels, all coarser levels, all decompositions, all points, boundary or not", "why_tests_cant": "Sparse-grid communication silently adds values of different points if this fails for any level pair; tests sample a few.", "anchors": ["src/utils/DecompositionUtils.hpp: downsampleDecomposition", "src/manager/ProcessGroupWorker.cpp: initializeTask"]}
{"id": "C05", "title": "The level of a 1d point and its hierarchical predecessors", "statement": "On a grid of level L, the level reported for a point is the coarsest level whose grid contains the point's coordinate; both hierarchical predecessors of a point above the coarsest level lie on a strictly coarser level at distance 2^(L-level), and are the reported left and right predecessor whenever they are inside the grid.", "quantifier": "all levels, all indices, all boundary types", "why_tests_cant": "Quantifies over all levels and indices.", "anchors": ["src/fullgrid/DistributedFullGrid.hpp: getLevel, getLeftPredecessor, getRightPredecessor"]}
{"id": "C06", "title": "Hierarchical subspaces tile the grid of every process", "statement": "Running over all levels of the down set of a component grid, the point lists reported for the subspaces contain each local point of each process exactly once, and a point is listed under the level vector formed by its 1d levels.", "quantifier": "all levels, all decompositions, all boundary types, all processes, all points", "why_tests_cant": "Needs all decompositions, in particular those where a process owns no point of a subspace.", "anchors": ["src/fullgrid/DistributedFullGrid.hpp: getFGPointsOfSubspace, get1dIndicesLocal, getLocalStartForThisLevel, getStrideForThisLevel, getNumPointsOnThisPartition"]}
{"id": "C07", "title": "Degree-of-freedom counts agree", "statement": "The nodal number of points of a component grid equals the sum, over the level vectors of its down set, of the number of hierarchical points per subspace, for every mixture of boundary types.", "quantifier": "all level vectors with levels >= 1, all boundary vectors", "why_tests_cant": "Infinite family of levels.", "anchors": ["src/utils/LevelSetUtils.hpp: getNumDofNodal, getNumDofHierarchical", "src/utils/LevelSetUtils.cpp: getDownSet"]}
{"id": "C08", "title": "The down set of a level contains exactly the dominated levels", "statement": "getDownSet(l) contains a level vector k exactly once if 1 <= k_d <= l_d in every dimension and not at all otherwise, and lists them in lexicographic order (which later binary searches rely on).", "quantifier": "all dimensionalities and level vectors", "why_tests_cant": "Infinite family of levels.", "anchors": ["src/utils/LevelSetUtils.cpp: getDownSet, getDownSetRecursively"]}
{"id": "C09", "title": "Truncated sparse-grid level sets", "statement": "createTruncatedHierarchicalLevels(lmax, lmin) returns, in lexicographic order and without duplicates, exactly the level vectors l with 1 <= l <= lmax such that for every subset of at least two dimensions the level sum over the subset is at most the subset sum of (lmax - n) plus n, where n is the smallest lmax-lmin; for admissible input it is downward closed.", "quantifier": "all dimensionalities, all lmin <= lmax", "why_tests_cant": "Infinite family.", "anchors": ["src/utils/LevelSetUtils.cpp: createTruncatedHierarchicalLevels, createTruncatedHierarchicalLevelsRec, getAllKOutOfDDimensions"]}
{"id": "C10", "title": "Classical combination scheme is a partition of unity on every subspace", "statement": "For the classical scheme on any lmin <= lmax with equal differences, every hierarchical subspace of the scheme's sparse grid is covered by component grids whose coefficients sum to exactly 1; in particular the coefficients sum to 1.", "quantifier": "all dimensionalities, all lmin, all level differences, all subspaces", "why_tests_cant": "A combinatorial identity over all dimensions and levels.", "anchors": ["src/combischeme/CombiMinMaxScheme.cpp: createClassicalCombischeme, computeCombiCoeffsClassical"]}
{"id": "C11", "title": "Dummy dimensions of the classical scheme keep their level", "statement": "In a classical scheme where lmin equals lmax in some dimension, every component grid has exactly that level in that dimension.", "quantifier": "all lmin <= lmax", "why_tests_cant": "Depends on the position and values of the dummy dimensions; the tests use equal maximum levels.", "anchors": ["src/combischeme/CombiMinMaxScheme.cpp: createClassicalCombischeme lines 44-50"]}
{"id": "C12", "title": "Coefficient computation terminates for schemes of any size", "statement": "Computing classical coefficients produces one coefficient per component grid and terminates for every number of component grids.", "quantifier": "all sizes of the scheme", "why_tests_cant": "Needs schemes with more than 255 component grids.", "anchors": ["src/combischeme/CombiMinMaxScheme.cpp: computeCombiCoeffsClassical"]}
{"id": "C13", "title": "Adaptive coefficients satisfy inclusion-exclusion", "statement": "For every set of component levels that is sorted and closed downwards above lmin, the coefficients computed by the adaptive scheme are such that for every level of the set the coefficients of the component grids dominating it sum to 1, although the code overwrites entries of the list while it iterates over it.", "quantifier": "all finite sorted level sets, any dimension", "why_tests_cant": "Needs all downward closed sets.", "anchors": ["src/combischeme/CombiMinMaxScheme.cpp: computeCombiCoeffsAdaptive"]}
{"id": "C14", "title": "The adaptive scheme covers the requested range", "statement": "createAdaptiveCombischeme(lmin, lmax) uses every level vector between lmin and lmax with level sum at most |lmin|+max(lmax-lmin).", "quantifier": "all lmin <= lmax", "why_tests_cant": "Anisotropic differences are not tested.", "anchors": ["src/combischeme/CombiMinMaxScheme.cpp: createAdaptiveCombischeme"]}
{"id": "C15", "title": "The down set regenerated from the active front is the scheme's down set", "statement": "Regenerating the down set from the grids with coefficient one yields, sorted and without duplicates, exactly the level vectors dominated by some component grid of the scheme.", "quantifier": "all schemes whose maximal grids carry coefficient one", "why_tests_cant": "Quantifies over all schemes.", "anchors": ["src/combischeme/CombiMinMaxScheme.hpp: createDownSet"]}
{"id": "C16", "title": "Splitting a scheme among systems loses and duplicates no grid", "statement": "For any fractions, the third-level decomposition assigns every component grid with its own coefficient to exactly one system.", "quantifier": "all schemes, all numbers of systems, all fractions", "why_tests_cant": "Any rounding of fractions times size must be safe.", "anchors": ["src/combischeme/CombiThirdLevelScheme.cpp: createThirdLevelScheme, decomposeScheme"]}
{"id": "C17", "title": "Distributing component grids among process groups is a partition", "statement": "Round-robin and cost-balanced assignment give every component grid together with its coefficient to exactly one process group; the group-local lists of level, coefficient and task number stay aligned.", "quantifier": "all schemes, all numbers of groups, all cost functions", "why_tests_cant": "Any list and cost function.", "anchors": ["src/combischeme/CombiMinMaxScheme.hpp: getRoundRobinLevels, getLoadBalancedLevels, getAssignedLevels"]}
{"id": "C18", "title": "Hierarchization and dehierarchization in 1d are mutually inverse", "statement": "For each basis (hat, full weighting, biorthogonal; periodic and non-periodic) and every level range, dehierarchizing the hierarchized values gives back the values and vice versa, on the grids the basis is meant for.", "quantifier": "all levels, all minimum levels, all data", "why_tests_cant": "All data vectors and levels.", "anchors": ["src/hierarchization/DistributedHierarchization.hpp: hierarchize_hat_boundary_kernel, hierarchize_full_weighting_boundary_kernel, hierarchize_biorthogonal_boundary_kernel and the dehierarchize counterparts"]}
{"id": "C19", "title": "Multi-dimensional hierarchization round trip", "statement": "dehierarchize(hierarchize(grid)) = grid for every grid and every choice of hierarchized dimensions and minimum levels, although both directions traverse the dimensions in the same order.", "quantifier": "all dimensionalities, levels, boundary types, bases, flags, data", "why_tests_cant": "All data; needs commutation of the one-dimensional operators.", "anchors": ["src/hierarchization/DistributedHierarchization.hpp: hierarchize, dehierarchize, hierarchizeWithBoundary"]}
{"id": "C20", "title": "Full-weighting and biorthogonal bases conserve mass", "statement": "Discarding all hierarchical coefficients of the finer levels leaves the integral of the piecewise linear interpolant unchanged for the full-weighting and biorthogonal bases.", "quantifier": "all levels and data", "why_tests_cant": "All data.", "anchors": ["src/hierarchization/DistributedHierarchization.hpp: hierarchize_full_weighting_boundary_kernel, hierarchize_biorthogonal_boundary_kernel"]}
{"id": "C21", "title": "Distributed hierarchization equals serial hierarchization", "statement": "For every split of a pole among processes, each process ends up with exactly the values a single process holding the whole pole would compute, whatever stale values its work buffer contained.", "quantifier": "all levels, all decompositions, all data, all stale buffer contents, periodic or not", "why_tests_cant": "Needs all decompositions: a missing ghost value only shows for particular cuts.", "anchors": ["src/hierarchization/DistributedHierarchization.hpp: exchangeData1d, exchangeData1dDehierarchization, exchangeAllData1d, hierarchizeWithBoundary, dehierarchizeWithBoundary, hierarchizeNoBoundary, dehierarchizeNoBoundary"]}
{"id": "C22", "title": "Ghost exchange of hierarchization sends exactly what is received", "statement": "In every 1d exchange, the set of indices process p sends to q is the set q expects to receive from p, so every message has a partner of the same size and the exchange cannot block.", "quantifier": "all levels, minimum levels, decompositions, process pairs, periodic or not", "why_tests_cant": "All decompositions; a mismatch hangs only for particular cuts.", "anchors": ["src/hierarchization/DistributedHierarchization.hpp: exchangeData1d, exchangeData1dDehierarchization, checkLeftSuccesors, checkRightSuccesors, checkPredecessors, getNextIndex1d, sendAndReceiveIndicesBlock"]}
{"id": "C23", "title": "Sparse-grid storage layout", "statement": "After any sequence of size changes, (re)allocations and resets, the data of different allocated subspaces occupy disjoint consecutive ranges of the buffer whose lengths are the registered sizes, in subspace order, and the total equals the buffer length.", "quantifier": "all operation histories", "why_tests_cant": "All histories.", "anchors": ["src/sparsegrid/DistributedSparseGridUniform.hpp: createSubspaceData, allocateDifferentSubspaces, getData, setDataSize, setZero, deleteSubspaceData", "src/sparsegrid/AnyDistributedSparseGrid.cpp: setDataSize, getAccumulatedDataSize"]}
{"id": "C24", "title": "Looking up subspaces while carrying a lower bound finds every level", "statement": "Looking up the indices of an ascending list of levels with the lower bound carried from one lookup to the next returns for each level its position in the sparse grid if present and 'not found' otherwise, under every way the iterations are handed out to threads.", "quantifier": "all sorted level sets, all ascending queries, all loop schedules", "why_tests_cant": "Schedules are not under test control.", "anchors": ["src/sparsegrid/DistributedSparseGridUniform.hpp: getIndexInRange, getIndex, addDistributedFullGrid, registerDistributedFullGrid"]}
{"id": "C25", "title": "Scatter to and gather from the sparse grid are inverse", "statement": "After registering a component grid, adding it with coefficient one to a zeroed sparse grid and extracting into a zeroed component grid of the same level reproduces every local value; adding several grids stores at each subspace point the coefficient-weighted sum over the grids that contain the subspace.", "quantifier": "all levels, decompositions, processes, data, coefficient lists, sets of grids", "why_tests_cant": "All data and level sets.", "anchors": ["src/sparsegrid/DistributedSparseGridUniform.hpp: registerDistributedFullGrid, addDistributedFullGrid", "src/fullgrid/DistributedFullGrid.hpp: extractFromUniformSG"]}
{"id": "C26", "title": "Combining is a projection", "statement": "If all component grids of a scheme that is a partition of unity on every subspace hold consistent values (equal hierarchical coefficients on shared subspaces), the combination step leaves every grid unchanged; after any combination step the grids are consistent, so combining twice equals combining once.", "quantifier": "all schemes, group assignments, data", "why_tests_cant": "All data and schemes, composition of several components.", "anchors": ["src/manager/ProcessGroupWorker.cpp: combineAtOnce", "src/manager/SparseGridWorker.hpp: reduceLocalAndGlobal, distributeCombinedSolutionToTasks, fillDFGFromDSGU"]}
{"id": "C27", "title": "Combination does not depend on the assignment of grids to groups", "statement": "In exact arithmetic the combined values are the same for every assignment of the component grids to process groups, every order within a group and every reduction order.", "quantifier": "all assignments, orders, data", "why_tests_cant": "All permutations and partitions.", "anchors": ["src/manager/SparseGridWorker.hpp: reduceLocalAndGlobal", "src/combicom/CombiCom.hpp: distributedGlobalSparseGridReduce", "src/sparsegrid/DistributedSparseGridUniform.hpp: addDistributedFullGrid"]}
{"id": "C28", "title": "Communication in chunks touches each value exactly once", "statement": "For every chunk size, the chunked all-reduce covers each buffer element exactly once and the chunked subspace lists put every subspace in exactly one chunk in order, each chunk respecting the size limit unless it consists of a single larger subspace.", "quantifier": "all buffer sizes, chunk sizes, subspace sizes", "why_tests_cant": "All sizes, including boundary cases.", "anchors": ["src/combicom/CombiCom.hpp: distributedGlobalSparseGridReduce, getChunkedSubspaces, distributedGlobalSubspaceReduce"]}
{"id": "C29", "title": "Chunk size computation does not overflow", "statement": "For every admissible chunk size in MiB and element type, the number of elements per chunk passed to MPI is positive and not larger than the requested memory.", "quantifier": "all chunk sizes, thread numbers and element sizes", "why_tests_cant": "Overflow needs large arguments.", "anchors": ["src/combicom/CombiCom.hpp: getGlobalReduceChunkSize, MiBtoBytes"]}
{"id": "C30", "title": "Subspace communicators join exactly the groups that share a subspace", "statement": "Each subspace that is present in two or more process groups is reduced in exactly one communicator, whose members are exactly these groups (or at least these groups, for the outgroup variant); subspaces present in at most one group take part in no reduction.", "quantifier": "all numbers of groups, all presence patterns", "why_tests_cant": "All presence patterns.", "anchors": ["src/sparsegrid/AnyDistributedSparseGrid.cpp: getSubspaceVote, setSubspaceCommunicators, setOutgroupCommunicator, getIngroupSubspaces"]}
{"id": "C31", "title": "All combination variants give the same result", "statement": "Sparse-grid reduce, subspace reduce, outgroup reduce and chunked outgroup reduce leave the same values in every subspace a group holds.", "quantifier": "all presence patterns, all data, all chunk sizes", "why_tests_cant": "All patterns and data.", "anchors": ["src/manager/SparseGridWorker.hpp: reduceLocalAndGlobal, collectReduceDistribute", "src/combicom/CombiCom.hpp: distributedGlobalSparseGridReduce, distributedGlobalSubspaceReduce"]}
{"id": "C32", "title": "Distributed interpolation equals interpolation on the whole grid", "statement": "The sum over processes of the local contributions to an interpolated value is the multilinear interpolant of the whole grid at the given coordinate.", "quantifier": "all grids, decompositions, coordinates in the unit cube, data", "why_tests_cant": "All coordinates, in particular on process boundaries.", "anchors": ["src/fullgrid/DistributedFullGrid.hpp: evalLocal, evalIndexAndAllUpperNeighbors, getInterpolatedValues"]}
{"id": "C33", "title": "Interpolation at the upper domain end with periodic boundary", "statement": "Interpolating at coordinate 1 in a dimension with one-sided (periodic) boundary gives the value stored at coordinate 0.", "quantifier": "all periodic grids", "why_tests_cant": "Boundary coordinate not covered by tests.", "anchors": ["src/fullgrid/DistributedFullGrid.hpp: evalLocal"]}
{"id": "C34", "title": "Distributed norms equal global norms", "statement": "The p-norms and maximum norm computed from local contributions equal the norm over all grid points for every decomposition.", "quantifier": "all decompositions and data", "why_tests_cant": "All decompositions.", "anchors": ["src/fullgrid/DistributedFullGrid.hpp: getLpNorm"]}
{"id": "C35", "title": "World ranks map one-to-one to (group, local rank)", "statement": "For every number of groups and processes per group, the local communicators partition the workers into groups of equal size, the global-reduce communicators contain exactly one process per group with the same local rank, ordered by group.", "quantifier": "all numbers of groups and processes, with and without manager", "why_tests_cant": "All sizes.", "anchors": ["src/mpi/MPISystem.cpp: initSystemConstants, initLocalComm, initGlobalReduceCommm, initGlobalComm"]}
{"id": "C36", "title": "The output group has one process per local rank", "statement": "For every number of groups and processes, the diagonal output ranks contain exactly one process per local rank, no process twice, and the process writing local rank r belongs to the group announced as output rank in the global-reduce communicator.", "quantifier": "all numbers of groups and processes, all diagonals", "why_tests_cant": "All sizes.", "anchors": ["src/mpi/MPISystem.cpp: getDiagonalRanks, initOutputGroupComm", "src/mpi/MPISystem.hpp: getOutputRankInGlobalReduceComm"]}
{"id": "C37", "title": "Writing and reading a distributed file is the identity", "statement": "If all processes write their values to one file at the offsets computed by prefix sums and later read with the same local sizes, each process gets its own values back, for every distribution of sizes; reading with reduction adds them in every buffer size.", "quantifier": "all numbers of processes, all local sizes, all values, all buffer sizes", "why_tests_cant": "All size distributions, including zero sizes.", "anchors": ["src/io/MPIInputOutput.hpp: getPositionFromNumValues, writeValuesConsecutive, readValuesConsecutive, readReduceValuesConsecutive"]}
{"id": "C38", "title": "Rewriting a shorter file can be read back", "statement": "Writing fewer values to an existing file and reading them again succeeds and returns the values written.", "quantifier": "all histories of writes", "why_tests_cant": "Depends on the previous content of the file.", "anchors": ["src/io/MPIInputOutput.hpp: getFileToWrite, checkFileSizeConsecutive, writeValuesConsecutive"]}
{"id": "C39", "title": "Collective reads are matched across processes", "statement": "In a read with reduction all processes of the communicator enter the same number of collective reads.", "quantifier": "all local sizes and buffer sizes", "why_tests_cant": "Only shows for unequal local sizes relative to the buffer.", "anchors": ["src/io/MPIInputOutput.hpp: readReduceValuesConsecutive, readMultipleReduceValuesConsecutive"]}
{"id": "C40", "title": "Files of other systems are reduced exactly once in any order of arrival", "statement": "Whatever the order in which token files appear, each announced file is reduced exactly once and the result is the sum of the own and all announced contributions.", "quantifier": "all arrival orders, numbers of files, values", "why_tests_cant": "Arrival order is not under test control.", "anchors": ["src/manager/SparseGridWorker.hpp: readReduce, removeReadingFiles"]}
{"id": "C41", "title": "Size reduction between systems finds the shared subspaces", "statement": "After exchanging subspace sizes with the other systems, the extra sparse grid keeps a non-zero size exactly for the subspaces that at least two systems hold, and the size is the common one.", "quantifier": "all size vectors of two or three systems", "why_tests_cant": "All size vectors including large ones.", "anchors": ["src/manager/SparseGridWorker.hpp: reduceExtraSubspaceSizes", "src/manager/ProcessGroupManager.cpp: reduceLocalAndRemoteSubspaceSizes"]}
{"id": "C42", "title": "Third-level exchange between two systems", "statement": "Whichever system announces readiness first, the broker and both systems complete the exchange without deadlock, and afterwards both hold the sum of the two contributions.", "quantifier": "all message interleavings, all numbers and sizes of grids", "why_tests_cant": "Interleavings are not under test control.", "anchors": ["third_level_manager/thirdLevelManager.cpp: processCombination, processUnifySubspaceSizes, forwardData", "src/manager/ProcessGroupManager.cpp: exchangeDsgus", "src/third_level/ThirdLevelUtils.cpp"]}
{"id": "C43", "title": "Manager assigns every task to exactly one group", "statement": "Running the first round hands every task to exactly one process group and only to groups that are waiting, for every order in which groups become ready; the group managers' lists agree with the workers' lists.", "quantifier": "all task lists, all completion orders", "why_tests_cant": "Completion orders.", "anchors": ["src/manager/ProcessManager.cpp: runfirst, wait", "src/manager/ProcessGroupManager.cpp: storeTaskReferenceAndSendTaskToProcessGroup"]}
{"id": "C44", "title": "Signals are only sent to waiting groups", "statement": "In every execution, the manager sends a new synchronous signal to a group only after the group reported that it waits, and every signal is answered by exactly one status message.", "quantifier": "all executions of manager and groups", "why_tests_cant": "All interleavings.", "anchors": ["src/manager/ProcessGroupManager.cpp: setProcessGroupBusyAndReceive, sendSignalAndReceive, waitStatus", "src/manager/ProcessGroupWorker.cpp: wait"]}
{"id": "C45", "title": "Rescheduling preserves the set of tasks and their values", "statement": "Moving tasks between groups neither loses nor duplicates a task, and each group's task list on the manager equals the list on the workers.", "quantifier": "all sequences of moves", "why_tests_cant": "All histories.", "anchors": ["src/manager/ProcessManager.cpp: reschedule", "src/manager/ProcessGroupManager.cpp: rescheduleAddTask, rescheduleRemoveTask", "src/manager/ProcessGroupWorker.cpp: wait (RESCHEDULE_*)"]}
{"id": "C46", "title": "The rescheduler proposes valid and useful moves", "statement": "Each proposed move names an existing task at most once and an existing group; there are at most max_iterations of them; if the load prognosis equals the measured durations, executing the moves never increases the largest group load.", "quantifier": "all task distributions, durations, parameters", "why_tests_cant": "All inputs.", "anchors": ["src/rescheduler/RebalancingTaskRescheduler.cpp: eval"]}
{"id": "C47", "title": "The rescheduler compares against the average group load", "statement": "The imbalance threshold is compared with the average load per process group.", "quantifier": "all task distributions", "why_tests_cant": "Needs more tasks than groups with particular loads.", "anchors": ["src/rescheduler/RebalancingTaskRescheduler.cpp: eval lines 27-41"]}
{"id": "C48", "title": "The load model averages exactly the last N durations", "statement": "After any history of reported durations, the stored window of a task is the last N durations reported for it, and the prognosis is their average.", "quantifier": "all histories, all N >= 1", "why_tests_cant": "All histories.", "anchors": ["src/loadmodel/AverageOfLastNLoadModel.cpp: addDurationInformation, evalSpecificUOT"]}
{"id": "C49", "title": "Compensated summation does not change exact sums", "statement": "In exact arithmetic the Kahan compensation terms stay zero and the accumulated values equal the plain weighted sums, for any number of summands and any history of resets.", "quantifier": "all summand sequences", "why_tests_cant": "All sequences.", "anchors": ["src/sparsegrid/DistributedSparseGridUniform.hpp: addDistributedFullGrid", "src/manager/InterpolationWorker.hpp: interpolateValues"]}
{"id": "C50", "title": "Minimum and maximum coefficients per subspace", "statement": "The reported minimum and maximum per subspace are the extreme values ever stored.", "quantifier": "all histories of data", "why_tests_cant": "Depends on the sign of the data.", "anchors": ["src/sparsegrid/DistributedSparseGridUniform.hpp: accumulateMinMaxCoefficients"]}
{"id": "C51", "title": "The partition of sparse-grid unknowns among processes is complete", "statement": "The numbers of sparse-grid unknowns reported per process for a decomposition add up to the total number of sparse-grid unknowns.", "quantifier": "all schemes, boundary types, decompositions", "why_tests_cant": "All decompositions.", "anchors": ["src/combischeme/CombiMinMaxScheme.hpp: getPartitionedNumDOFSG, getSGDegreesOfFreedomFromDownSet"]}
{"id": "C52", "title": "Gathering a distributed grid reproduces the global grid", "statement": "Gathering the local parts of a grid on one process places every value at its global linear index, for every decomposition.", "quantifier": "all decompositions and data", "why_tests_cant": "All decompositions.", "anchors": ["src/fullgrid/DistributedFullGrid.hpp: gatherFullGrid, getGlobalLI"]}
{"id": "C53", "title": "Mirroring the lower boundary to the upper boundary", "statement": "After writing the lower boundary to the upper boundary in a dimension, both boundary layers are equal and no other value changed.", "quantifier": "all grids and dimensions", "why_tests_cant": "All grids.", "anchors": ["src/fullgrid/DistributedFullGrid.hpp: writeLowerBoundaryToUpperBoundary"]}
{"id": "C54", "title": "Powers of two from the table", "statement": "The tables powerOfTwo[i] and oneOverPowOfTwo[i] hold 2^i and 2^-i for every index of the table.", "quantifier": "all table indices", "why_tests_cant": "The last entry is never used in tests.", "anchors": ["src/utils/PowerOfTwo.hpp"]}
{"id":"C55","title":"Global linear indices convert to local linear indices","statement":"For every point owned by a process, converting the point's global linear index to a local linear index gives the index under which the process stores the point.","quantifier":"all grids, all decompositions, all processes, all points they own","why_tests_cant":"The conversion coincides with the right answer whenever the process owns the whole grid, so single-process tests pass; it must hold for every box inside every grid.","anchors":["src/fullgrid/DistributedFullGrid.hpp: getLocalLinearIndex(global)","src/fullgrid/Tensor.hpp"]}
{"id":"C56","title":"All component grids list the points of a shared subspace in the same order","statement":"For two component grids whose decompositions are downsampled from one reference decomposition, the point lists of any common subspace on any process have the same length and name points with the same coordinates at the same positions; this is what makes adding subspace data of different grids element by element meaningful.","quantifier":"all reference levels and decompositions, all pairs of component levels, all common subspaces, all processes, all boundary types","why_tests_cant":"A mismatch appears only for particular combinations of decomposition, levels and boundary type; there are infinitely many of them.","anchors":["src/fullgrid/DistributedFullGrid.hpp: getFGPointsOfSubspace, get1dIndicesLocal","src/utils/DecompositionUtils.hpp: downsampleDecomposition"]}
{"id":"C57","title":"The hypercube level generator visits every dominated level","statement":"Calling getNextLevel as often as getTotalNumberOfLevels says returns every level vector between 1 and the given maximum level exactly once.","quantifier":"all dimensionalities and maximum levels","why_tests_cant":"The tests use one maximum level; the termination test of the generator depends on the relation between the maximum levels of the dimensions.","anchors":["src/utils/LevelSetUtils.hpp: HypercubeDownSetGenerator"]}
{"id":"C58","title":"Predicted subspace extents match the points a process owns","statement":"For grids with both boundary points, the number of points of a hierarchical level predicted for a process in one dimension equals the number of points of this level that the process enumerates in its partition.","quantifier":"all levels, all reference levels, all valid decompositions, all processes","why_tests_cant":"the comparison in the tests is a warning for non-regular schemes and uses only default decompositions; the wrong case needs a process starting exactly at the middle or end of the domain","anchors":["src/combischeme/CombiMinMaxScheme.hpp: getHighestIndexInHierarchicalSubspaceLowerThanNodalIndexOnLref, getPartitionedNumDOFSG","src/fullgrid/DistributedFullGrid.hpp: get1dIndicesLocal"]}
{"id": "C59", "title": "A scheme with lmin = lmax consists of that one grid", "statement": "createClassicalCombischeme with lmin = lmax yields the single component grid lmin with coefficient 1.", "quantifier": "all level vectors lmin = lmax", "why_tests_cant": "the tests never build a scheme without a refinable dimension", "anchors": ["src/combischeme/CombiMinMaxScheme.cpp: createClassicalCombischeme lines 23-28"]}
{"id": "C60", "title": "The stored down set of a classical scheme is sorted and complete", "statement": "After createClassicalCombischeme, getDownSet() is lexicographically sorted without duplicates and contains exactly the level vectors dominated by some component grid.", "quantifier": "all lmin <= lmax, any dimension", "why_tests_cant": "sortedness and closure concern sets that grow exponentially with dimension and level", "anchors": ["src/combischeme/CombiMinMaxScheme.cpp: createClassicalCombischeme", "src/combischeme/CombiMinMaxScheme.hpp: getDownSet"]}
{"id": "C61", "title": "The conjoint set is a set, closed downwards", "statement": "getConjointSet returns every level at most once, is closed downwards, and contains exactly the levels dominated by those elements of the poles below the active front that occur on fewer than dim poles; hence getNumDOFSGConjoint counts each unknown once.", "quantifier": "all schemes and lmin", "why_tests_cant": "the code appends an element without checking that it is already in the list; that this never duplicates depends on the map order for every scheme", "anchors": ["src/combischeme/CombiMinMaxScheme.hpp: getConjointSet lines 430-473"]}
{"id": "C62", "title": "Cost-balanced assignment is balanced", "statement": "After getLoadBalancedLevels the numbers of grid points assigned to any two groups differ by at most the number of points of the largest component grid.", "quantifier": "all schemes, costs and numbers of groups", "why_tests_cant": "a bound over all multisets of costs", "anchors": ["src/combischeme/CombiMinMaxScheme.hpp: getLoadBalancedLevels lines 570-588"]}
{"id": "C63", "title": "Pole traversal visits every local point exactly once and slices are aligned", "statement": "For every local grid shape and every dimension, both traversals of the one-dimensional poles used by hierarchization (the nested loops with boundary points and the single loop with a division without) visit poles such that every local grid point lies on exactly one visited pole, at the position given by its coordinate in the dimension, and the running number under which a pole reads values out of received slices is the position of that point in the MPI subarray slice.", "quantifier": "all local extents (positive), all dimensions, all local points, both traversals", "why_tests_cant": "Tests run a few grid shapes; a wrong stride or pole number only shows for particular non-cubic shapes and dimensions.", "anchors": ["src/hierarchization/DistributedHierarchization.hpp:894-962", "src/hierarchization/DistributedHierarchization.hpp:968-1044", "src/hierarchization/DistributedHierarchization.hpp:92-244"]}
{"id": "C64", "title": "Interpolating the combined solution", "statement": "The value interpolateValues returns at a coordinate is the sum over all tasks of all process groups of combination coefficient times multilinear interpolant of the task's whole grid, and does not depend on which group holds which task.", "quantifier": "all task sets, assignments to groups, decompositions, coordinates in the unit cube (below 1 in periodic dimensions) and data", "why_tests_cant": "All assignments and coordinates; tests use a few fixed schemes.", "anchors": ["src/manager/InterpolationWorker.hpp: interpolateValues", "src/fullgrid/DistributedFullGrid.hpp: evalLocal"]}
{"id": "C65", "title": "Ghost layers hold the layer below the own box", "statement": "exchangeGhostLayerUpward(d) leaves on every process a buffer with the extents of its box and extent 1 in d, whose entries are the values of the grid points with the same indices in the other dimensions and index lower bound minus one in d; for the process at the lower end it is the highest layer of the grid if the dimension is periodic (one-sided boundary) and an empty buffer otherwise. Every receive is matched by a send.", "quantifier": "all process grids, valid decompositions, dimensions and grid functions", "why_tests_cant": "Tests use a few process grids with equal parts; the neighbour's box may have another extent in d and the wrap-around only happens on some ranks.", "anchors": ["src/fullgrid/DistributedFullGrid.hpp:1586-1640", "src/fullgrid/DistributedFullGrid.hpp:1876-1940"]}
{"id": "C66", "title": "Messages between system and broker arrive however the bytes are delivered", "statement": "A length prefixed message that was sent over a connection is received unchanged, in order, and without taking bytes of later messages, for every way in which recv(2) and send(2) split the bytes; a connection closed inside of a message is noticed. A message of 2^31 bytes or more cannot be received.", "quantifier": "all messages, all splits of the byte stream", "why_tests_cant": "How the network splits the stream is not under the control of a test.", "anchors": ["src/third_level/NetworkUtils.cpp: sendall, sendallPrefixed, recvall, recvLength, recvallPrefixed", "third_level_manager/System.cpp: receivePosNumber"]}
{"id": "C67", "title": "The broker forwards data unchanged", "statement": "forwardData passes the announced size and exactly that many bytes on to the other system, for every chunk size and every split of the byte stream.", "quantifier": "all data, chunk sizes, splits", "why_tests_cant": "Splits of the stream.", "anchors": ["src/third_level/NetworkUtils.cpp: forward", "third_level_manager/thirdLevelManager.cpp: forwardData"]}
{"id": "C68", "title": "Binary data is received and added correctly however the bytes are delivered", "statement": "Receiving n elements sent by sendallBinary combines the i-th element with the i-th entry of the buffer and takes nothing else from the stream, for every split of the byte stream.", "quantifier": "all values, element sizes, chunk sizes, splits", "why_tests_cant": "Splits inside of one element are rare and depend on the network.", "anchors": ["src/third_level/NetworkUtils.hpp: recvallBinaryAndCorrectInPlace, recvallBinaryAndReduceInPlace, sendallBinary"]}
{"id": "C69", "title": "Data of a system of the other byte order is converted", "statement": "Data sent by a system with the other byte order is received with the right values.", "quantifier": "all values, chunk sizes, splits", "why_tests_cant": "Needs two kinds of machines.", "anchors": ["src/third_level/NetworkUtils.hpp: reverseEndianness, recvallBinaryAndReduceInPlace"]}
{"id": "C70", "title": "Manager and groups never wait for each other forever", "statement": "For every orderly sequence of calls on the process manager and every interleaving with the groups and the messages, a state without a next step is one where all calls have been carried out and every group has answered every signal; no run is infinite.", "quantifier": "all numbers of groups, all orderly sequences of calls, all interleavings", "why_tests_cant": "All interleavings; a deadlock shows up as a hang only for particular timings.", "anchors": ["src/manager/ProcessManager.cpp", "src/manager/ProcessGroupManager.cpp: sendSignalAndReceive, recvStatus, waitStatus, rescheduleRemoveTask", "src/manager/ProcessGroupWorker.cpp: wait"]}
{"id": "C71", "title": "The averaging load model keeps every reported duration", "statement": "After any history of reported durations, file and memory together have all of them in their order; the expected load is the average of the reported durations.", "quantifier": "all histories", "why_tests_cant": "Needs more reports than the number after which durations are written to the file.", "anchors": ["src/loadmodel/AveragingLoadModel.hpp: addDurationInformation, writeDurationsToFile, eval"]}
{"id": "C72", "title": "A combination of the whole system combines hierarchical coefficients point by point", "statement": "For every wellformed system (any number of process groups and processes, any valid decomposition, boundary types, bases and combination variant), in every state reachable by computing and combining, ProcessGroupWorker::combineAtOnce on all processes ends and gives each task, at every grid point, the nodal value belonging to the combined hierarchical coefficients: at points whose subspace is in the sparse grid the sum over all tasks containing the subspace of coefficient times the task's hierarchical coefficient at the same geometric point, elsewhere the task's own coefficient. Levels and coefficients of the tasks stay.", "quantifier": "all process grids, numbers of groups, decompositions, levels up to 28, boundary types, bases, variants, chunk sizes, communicator orders, stale buffers and reachable states", "why_tests_cant": "Tests run a handful of process counts and schemes; the statement composes hierarchization, registration, reduction and distribution over all of them.", "anchors": ["src/manager/ProcessGroupWorker.cpp:538-564", "src/manager/TaskWorker.hpp:29-105", "src/manager/SparseGridWorker.hpp:708-746"]}
{"id": "C73", "title": "The result of a combination does not depend on the parallel distribution", "statement": "Two systems with the same tasks (level, coefficient and values at all points, in any order and spread over any groups) but different process grids, decompositions, reference levels, numbers of groups, combination variants, chunk sizes, communicator orders and stale buffers have the same value at every point of every task after a combination (in exact arithmetic).", "quantifier": "all pairs of wellformed systems and reachable states with the same tasks", "why_tests_cant": "Pairs of arbitrary distributions cannot be enumerated.", "anchors": ["src/manager/ProcessGroupWorker.cpp:538-564", "src/fullgrid/DistributedFullGrid.hpp:615-658"]}
{"id": "C74", "title": "With hat functions a combination keeps samples of a function", "statement": "With hat basis functions in all hierarchized dimensions and coefficients that sum to one for each subspace (in particular the classical, fault-tolerant and adaptive schemes of the library), if all tasks hold samples of one function (or only agree at common grid points), then a combination leaves the value at every grid point of every task unchanged.", "quantifier": "all functions on the unit cube, schemes, systems and reachable states", "why_tests_cant": "Tests sample a few functions; the statement is about every function and every scheme.", "anchors": ["src/hierarchization/DistributedHierarchization.hpp:1129-1268", "src/manager/ProcessGroupWorker.cpp:538-564"]}
{"id": "C75", "title": "A second combination changes nothing", "statement": "If coefficients sum to one per subspace and the hierarchical transform is invertible for the bases and boundary types used, then combining again right after a combination leaves the value at every grid point of every task unchanged, for all bases.", "quantifier": "all wellformed systems, reachable states, chunk sizes, orders and stale buffers of both combinations", "why_tests_cant": "Requires all values and distributions; rounding hides small deviations in tests.", "anchors": ["src/manager/ProcessGroupWorker.cpp:538-564", "src/hierarchization/DistributedHierarchization.hpp:1129-1268"]}
{"id": "C76", "title": "Elements, multi-indices, coordinates and level-index pairs of a serial full grid name the same points", "statement": "For a FullGrid with levels 1..28 and boundary types 0, 1, 2: getVectorIndex and getLinearIndex are inverse to each other between the element numbers and the multi-indices inside the grid; getCoords gives, per dimension, the index (counted from 1 without boundary points) times 2^-level, inside [0,1]; getLI gives a level not above the grid's and an index with coordinate = index * 2^-level, the index odd or (0,0) at the lower end; different elements have different level-index lists.", "quantifier": "for all dimensions, level vectors with entries 1..28, boundary types and element numbers", "why_tests_cant": "Tests run a few small grids; the conversions are three different loops (offset division, repeated division, halving) that must agree for every grid shape.", "anchors": ["src/fullgrid/FullGrid.hpp:517-593", "src/fullgrid/FullGrid.hpp:243-247"]}
{"id": "C77", "title": "Evaluating a serial full grid gives the multilinear interpolant", "statement": "FullGrid::eval at any coordinate of the unit cube is the value of the multilinear interpolant of the stored values (the function the distributed grid evaluates), it reproduces the stored value at every grid point, and is 0 outside the unit cube.", "quantifier": "for all grids with at most 28 dimensions and levels 1..28, all stored values and all coordinates", "why_tests_cant": "The cell search, the clipping at both ends and the corner enumeration interact with every boundary type and position; tests sample few coordinates.", "anchors": ["src/fullgrid/FullGrid.hpp:410-515"]}
{"id": "C78", "title": "Adding and resampling serial full grids", "statement": "FullGrid::add changes every element by coefficient times the value of the other grid at the element's coordinates, both on the direct path for equal grids and on the interpolating path; gridEval sets every element of the target to the value of the source there, and copies it if the levels are equal.", "quantifier": "for all pairs of grids of the same dimension, all stored values, coefficients and elements", "why_tests_cant": "The direct path and the interpolating path must coincide for all grids, including coarser, finer and anisotropic pairs.", "anchors": ["src/fullgrid/FullGrid.hpp:692-709", "src/fullgrid/FullGrid.hpp:724-756"]}
{"id": "C79", "title": "Serial hierarchization agrees with the distributed one and is undone by dehierarchization", "statement": "Hierarchization::hierarchize and dehierarchize of a FullGrid give at every point the value the distributed sweeps give for the same function on any process grid; each undoes the other for every element vector; no element outside the grid is written.", "quantifier": "for all dimensions, levels 1..28, values, process grids and decompositions", "why_tests_cant": "The serial kernels walk levels with shifts, strides and two end cases, the distributed ones exchange values between processes; tests compare them on a few grids only.", "anchors": ["src/hierarchization/Hierarchization.hpp:53-135", "src/hierarchization/Hierarchization.hpp:138-221", "src/hierarchization/Hierarchization.hpp:231-428"]}
{"id": "C80", "title": "After faults the recomputed coefficients avoid every failed grid", "statement": "For a combination scheme whose levels lie between lmin and lmax and below a grid with positive coefficient, and for any set of failed grids of the scheme: LP_OPT_INTERP sets up an integer program that has an optimal solution, and from any feasible solution getResults returns one coefficient for every grid of the scheme such that every failed grid either has coefficient 0 or is listed for recomputation; listed are only failed grids outside the two finest diagonals with a nonzero coefficient.", "quantifier": "for all dimensions, minimum and maximum levels, schemes, sets of failed grids and all feasible solutions (integer program and relaxation)", "why_tests_cant": "The tests check two fixed schemes with one or two faults; which grids fail, the shape of the scheme and the solution GLPK picks are unbounded.", "anchors": ["src/fault_tolerance/LPOptimizationInterpolation.cpp:5-335", "src/fault_tolerance/FTUtils.cpp:1-420"]}
{"id": "C81", "title": "After faults no subspace is counted more than once", "statement": "If the scheme stores every level of its down set, then after getResults the coefficients of the grids containing a given subspace of the down set add up to a number between 0 and 1 (0 or 1 for integral solutions), and to exactly 1 for an optimal solution if the subspace is contained in no failed grid of the two finest diagonals.", "quantifier": "for all schemes, sets of failed grids, feasible and optimal solutions and all subspaces of the down set", "why_tests_cant": "The sum over all grids containing a subspace is a global property of the solution; tests compare a few coefficient vectors.", "anchors": ["src/fault_tolerance/LPOptimizationInterpolation.cpp:93-335", "src/fault_tolerance/FTUtils.cpp:1-420"]}
{"id": "C82", "title": "Recomputed coefficients of the manager form a combination", "statement": "With the adaptive scheme extended by makeFaultTolerant, if at least one grid of the two finest diagonals fails, recomputeOptimumCoefficients leaves the manager's parameters with coefficients such that for every subspace of the down set the coefficients of the grids containing it add up to a number between 0 and 1, to exactly 1 if no failed grid of the two finest diagonals contains it, and with a span of at least 2 the sum of all coefficients is 1.", "quantifier": "for all dimensions, minimum levels, spans, sets of failed tasks and optimal solutions", "why_tests_cant": "Depends on the whole chain from the scheme through identifiers, dictionary and linear program back to the parameters, for every scheme size.", "anchors": ["src/manager/ProcessManager.hpp:726-789", "src/combischeme/CombiMinMaxScheme.cpp:75-150", "src/manager/CombiParameters.hpp:225-330"]}
{"id": "C83", "title": "Failed tasks are split into redistributed and recomputed ones", "statement": "After recomputeOptimumCoefficients the failed task identifiers are sorted, every failed task is either to be redistributed, and has new coefficient 0, or to be recomputed, and has a nonzero new coefficient; levels of tasks are unchanged and the map from levels to coefficients agrees with the map from tasks to coefficients.", "quantifier": "for all schemes, sets of failed tasks and feasible solutions", "why_tests_cant": "A task in neither or both lists only shows with particular combinations of failed grids.", "anchors": ["src/manager/ProcessManager.hpp:726-789", "src/manager/CombiParameters.hpp:225-330"]}
{"id": "C84", "title": "restoreCombischeme restores the coefficients", "statement": "After any faults and recomputation, restoreCombischeme gives every task the coefficient it has in the fault-tolerant adaptive scheme again and changes no level and no other task.", "quantifier": "for all schemes, parameters and histories of faults", "why_tests_cant": "The lookup from level to task identifier must succeed for every grid of the newly built scheme; tests run one scheme.", "anchors": ["src/manager/ProcessManager.cpp:342-357", "src/manager/CombiParameters.hpp:225-330"]}
{"id": "C85", "title": "Static faults strike exactly the listed ranks and iterations", "statement": "StaticFaults::failNow answers true for a combination step and a rank exactly if some position of the two lists holds this step and this rank.", "quantifier": "for all lists of iterations and ranks, all steps and ranks", "why_tests_cant": "Repeated iterations in the list and ranks in any order are unbounded.", "anchors": ["src/fault_tolerance/StaticFaults.cpp:10-27"]}
{"id": "C86", "title": "Compensated summation bounds the rounding error independently of the number of grids", "statement": "If every operation is accurate up to a relative error u <= 1/64, then compensated summation of n numbers (n u <= 1), as used for adding full grids to the sparse grid, for interpolated values and for norms, is off by at most (5 u + 12 n u^2) times the sum of the absolute values; after adding any number of full grids to a sparse grid with fresh storage, every element is off by at most (6 u + 18 n u^2) times the sum of the absolute values of its n contributions.", "quantifier": "for all rounding functions with relative error at most u, all lists of summands, all grids, coefficients, values and storage layouts", "why_tests_cant": "A wrong sign or a dropped compensation changes results only in the last digits; tests compare with tolerances.", "anchors": ["src/sparsegrid/DistributedSparseGridUniform.hpp:806-866", "src/manager/InterpolationWorker.hpp:16-33", "src/manager/ProcessManager.cpp:434-448"]}
{"id": "C87", "title": "A sparse grid starts each summation with zero compensation", "statement": "After the storage of a sparse grid is created, set to zero or allocated for different subspaces, all data and all compensation terms are zero and every element has its own compensation term.", "quantifier": "for all element sizes, previous states, subspace sizes and choices of subspaces", "why_tests_cant": "A stale compensation changes sums by about one rounding error and only with particular sequences of allocations and element types.", "anchors": ["src/sparsegrid/DistributedSparseGridUniform.hpp:46-137"]}
{"id": "C88", "title": "Recovery after failed groups terminates and leaves every task in exactly one group", "statement": "Let the tasks of the failed groups be divided into tasks to redistribute and tasks to recompute. Then recoverCommunicators, redistribute or reInitializeGroup, recompute and updateCombiParameters end after a bounded number of steps without getting stuck, whether the failed groups could be restored or not. Afterwards all groups wait, manager and workers agree on the tasks of every group, every task is in exactly one group, the tasks of the other groups are unchanged, tasks to redistribute contain zeros, tasks to recompute their recomputed solution, and all workers have the new parameters.", "quantifier": "for all numbers of groups, distributions of tasks, sets of failed groups (not all), divisions of the failed tasks, previous contents of restored workers, and all interleavings of manager and workers", "why_tests_cant": "The group that gets a task depends on timing; tests run one or two fault patterns with few groups on one machine.", "anchors": ["src/manager/ProcessManager.cpp:163-340", "src/manager/ProcessManager.hpp:433-464", "src/manager/ProcessGroupManager.cpp:22-74", "src/manager/ProcessGroupManager.cpp:524-588", "src/manager/ProcessGroupWorker.cpp:140-182", "src/manager/ProcessGroupWorker.cpp:268-290"]}
{"id": "C89", "title": "The combination after a fault uses the recomputed coefficients", "statement": "After recovery and updateCombiParameters, the combined solution is the sum of the solutions of the tasks with the coefficients found by recomputeOptimumCoefficients.", "quantifier": "for all schemes, faults, solutions and outcomes of the recovery", "why_tests_cant": "Wrong coefficients only show after a fault, in code that is compiled only with fault tolerance enabled; the tests look at one fault in one scheme.", "anchors": ["src/manager/SparseGridWorker.hpp:1000-1013", "src/manager/SparseGridWorker.hpp:401-404", "src/manager/SparseGridWorker.hpp:432-436", "src/task/Task.hpp:212", "src/manager/ProcessGroupWorker.cpp:675-723"]}
{"id": "C90", "title": "No task is lost by faults and recovery", "statement": "After any faults that leave a group alive, recomputeOptimumCoefficients and the recovery, every task is in a group, and every task without data has the coefficient 0 in the new parameters.", "quantifier": "for all schemes, sets of failed groups and outcomes of the recovery", "why_tests_cant": "Tests let a group with a fine grid fail; whether all failed tasks are covered depends on which grids the failed group has.", "anchors": ["src/manager/ProcessManager.hpp:726-789", "src/manager/ProcessManager.cpp:181-298", "src/fault_tolerance/LPOptimizationInterpolation.cpp:5-335"]}
{"id": "C91", "title": "With mass-conserving basis functions the combination keeps the integral", "statement": "Let every dimension be hierarchized with a full weighting or biorthogonal basis that fits its boundary (periodic variants for one-sided boundaries), let no task be coarser than the minimum level, and let the subspaces up to the minimum level take part in the combination. Then after combineAtOnce every component grid has the same integral (of its multilinear interpolant), namely the sum of the integrals before times the combination coefficients. For the combination schemes of the library, the combined integral is the same before and after.", "quantifier": "for all dimensions, levels, process grids, distributions of tasks to groups, reduction variants, message sizes and data", "why_tests_cant": "Tests check the integral of a few smooth functions on a few grids within a tolerance, and only for the combined solution, not of all grids of all groups.", "anchors": ["src/manager/ProcessGroupWorker.cpp:538-564", "src/hierarchization/CombiLinearBasisFunction.hpp", "src/hierarchization/DistributedHierarchization.hpp:1129-1268", "src/manager/TaskWorker.hpp:29-105"]}
{"id": "C92", "title": "Several systems that exchange their sparse grids through files combine as one system", "statement": "Two or three systems, each with its own process groups and tasks, agree on the subspaces that at least two of them have (through files of sizes), and then combine by writing the sums of their own tasks to files and adding the files of the others. If all processes need the same number of reads for their parts, older files are not longer than the new ones and all token files appear eventually, then the exchange of sizes and every later combination succeed on all systems. Afterwards every task of every system has, at the points of the sparse grid's subspaces, the weighted sum over the tasks of all systems. These are the values one system with all the tasks would have. Values on which all systems agreed before stay as they are, if the coefficients of all systems add up to one; after any combination all systems agree.", "quantifier": "for all dimensions, levels, task distributions to systems, groups and processes, output groups, chunk and buffer sizes, orders of parallel writes, delays of token files, contents of older files, and numbers of solve and combine steps", "why_tests_cant": "Tests run two systems with one group each on a few grids, wait in a fixed order and compare one solution; they cannot cover all distributions of common subspaces, timings and repetitions.", "anchors": ["src/manager/ProcessGroupWorker.cpp:491-526", "src/manager/ProcessGroupWorker.cpp:841-894", "src/manager/ProcessGroupWorker.cpp:966-1000", "src/manager/SparseGridWorker.hpp:786-1029", "src/manager/SparseGridWorker.hpp:1086-1149"]}
{"id": "C93", "title": "Combining several whole systems through files, with hierarchization, equals the combination technique on all their tasks", "statement": "Two or three whole systems, all with the same processes per group, decomposition and sparse grid, but with their own groups and tasks, hierarchize, exchange their sparse grids through files and dehierarchize. In every state that can be reached by computing and combining this succeeds, and afterwards every task of every system has at every grid point the value of the combined hierarchical coefficients of the tasks of all systems. One system with the same tasks, with any groups, processes and decomposition, gets the same values. With hat functions, samples of one function on the grids of a combination scheme stay as they are, however the grids are distributed to the systems; a second combination changes nothing; and with conservative bases the combined integral over all systems stays the same and every task of every system has it.", "quantifier": "for all numbers of dimensions, levels, boundary types, bases, decompositions, task distributions to systems and groups, output groups, chunk and buffer sizes, orders of parallel writes, delays of token files, contents of older files and work buffers, and numbers of solve and combine steps", "why_tests_cant": "The widely-distributed tests run two systems on a few small schemes in one order; that every distribution of a scheme over systems, groups and processes gives the values of a single system is a statement about all of them.", "anchors": ["src/manager/ProcessGroupWorker.cpp:491-535", "src/manager/ProcessGroupWorker.cpp:726-732", "src/manager/ProcessGroupWorker.cpp:841-894", "src/manager/SparseGridWorker.hpp:786-1029", "src/manager/TaskWorker.hpp:29-105"]}
{"id": "C94", "title": "Tasks that move to another process group and output grids are filled with the combined solution", "statement": "After a combination with sparseGridReduce, moving a task to another group, or filling a new grid of any level for output, succeeds and gives at every grid point the value of the combined hierarchical coefficients in the subspaces of the sparse grid, zero in all others. If the subspaces of all tasks are in the sparse grid, any sequence of moves keeps the values of all tasks. All later combinations, with further moves and solver steps in any order, succeed and give the combination of the current tasks, the same as for any other distribution. What a moved task has outside the sparse grid is lost. With subspaceReduce and outgroupSparseGridReduce also the coefficients of subspaces that the new group did not have before are lost; with chunkedOutgroupSparseGridReduce, and before the first combination, moving reads through a null pointer.", "quantifier": "for all numbers of dimensions, levels, boundary types, bases, decompositions, task distributions, sequences of solving, combining and moving, chunk sizes, orders and contents of work buffers", "why_tests_cant": "The rescheduling tests move a task once and check one function with one reduction; that no sequence of moves changes the values or a later combination, and that three of the four reductions lose data, depends on which group knows which subspace.", "anchors": ["src/manager/SparseGridWorker.hpp:627-656", "src/manager/SparseGridWorker.hpp:755-784", "src/manager/ProcessGroupWorker.cpp:366-411", "src/manager/ProcessManager.cpp:592-604", "src/fullgrid/DistributedFullGrid.hpp:1306-1341"]}
{"id": "C95", "title": "Two systems combined over the network get the combination of all their tasks", "statement": "Two systems with a manager each, connected through the third level manager, first unify the sizes of their sparse grids, then combine: in every order of the messages the start succeeds with the same result and leaves the tasks as they are, and every combination in any later state gives every task of both systems at the points of the sparse grid's subspaces the weighted sum over the tasks of both systems, with and without extra sparse grids, and neither gets stuck nor goes on forever. This is what one system with all the tasks computes, and what agreeing tasks with coefficients adding up to one keep unchanged; afterwards all tasks agree. If a process has no point to exchange, no execution completes the combination: the manager throws. If all processes together get 2^31 values or more by the unification, the manager takes the number for smaller than before and throws.", "quantifier": "for all numbers of dimensions, processes and groups, levels, task distributions to systems, groups and processes, choices of third level groups, sequences of solving and combining, chunk sizes and message orders", "why_tests_cant": "The third level tests run a few schemes with one order of messages as it happens; a process without points in the common subspaces, or a total of 2^31 values, does not occur in them.", "anchors": ["src/manager/ProcessManager.hpp:505-526", "src/manager/ProcessManager.hpp:653-695", "src/manager/ProcessGroupManager.cpp:248-330", "src/manager/ProcessGroupManager.cpp:376-490", "src/manager/ProcessGroupWorker.cpp:734-792", "src/manager/ProcessGroupWorker.cpp:911-950", "src/manager/ProcessGroupWorker.cpp:1003-1022"]}
{"id": "C96", "title": "Combining two whole systems over the network is one combination of all their tasks", "statement": "Two systems of several process groups, connected over the network, that hierarchize, exchange, dehierarchize: if both have a task and the sparse grid contains the subspaces these two have in common, then every process has points to exchange, with and without extra sparse grids, and in every state that can be reached by computing and combining the combination succeeds, with one result for all orders of messages, and gives every task of both systems at every point the values of the combined hierarchical coefficients of all tasks of both systems. One system with all the tasks, whatever its groups, processes and reduction, gets the same. With hat functions, common values, in particular samples of one function on the grids of a combination scheme, are kept. A second combination changes nothing. With conservative bases the combined integral is kept, and every task has it.", "quantifier": "for all numbers of dimensions, levels, boundary types, bases, decompositions, groups, task distributions to the systems, choices of third level groups, sequences of solving and combining, chunk sizes, message orders and contents of work buffers", "why_tests_cant": "The third level tests compare a few schemes with the analytical solution; the equality with one system for every distribution, and that no process is left without points to exchange, need all decompositions and levels.", "anchors": ["src/manager/ProcessManager.hpp:505-526", "src/manager/ProcessGroupWorker.cpp:475-488", "src/manager/ProcessGroupWorker.cpp:726-792", "src/manager/ProcessGroupWorker.cpp:1003-1022"]}
{"id": "C97", "title": "A plot file holds every value of the distributed grid at its global linear index", "statement": "DistributedFullGrid::writePlotFile on all processes: whatever the decomposition, the order in which the processes write and the previous contents of the file, the value of every grid point is in the file at its global linear index (first dimension fastest), in .raw files from the first byte on, otherwise behind 4*(dim+1) bytes. A new .raw file consists of exactly the values. Other files begin with the dimension as one byte and the first six extents as ints. The readers in tools/ get the grid back from the file.", "quantifier": "for all numbers of dimensions, extents, decompositions, numbers of processes, element sizes, values, previous contents, orders of the writes", "why_tests_cant": "No test reads a plot file back (test_distributedfullgrid.cpp only writes one, in a comment); any test would fix one decomposition and start without a file.", "anchors": ["src/fullgrid/DistributedFullGrid.hpp:1407-1472", "tools/errorCalc.cpp:103-134", "tools/plot_raw_slice.py:11-32", "src/utils/Types.hpp:40"]}
{"id": "C98", "title": "Plotting several grids gives one file per grid", "statement": "interpolateAndPlotOnLevel with several grids: every grid is written to a file of its own, in the given directory, and afterwards the file of a grid contains this grid.", "quantifier": "for all file names, numbers of grids, previous contents of the files", "why_tests_cant": "Tests use one grid and one file name; the failing names (ending in .vtk, without a dot, with a dot in the directory) are not among them.", "anchors": ["src/manager/SparseGridWorker.hpp:752-784"]}
{"id": "C99", "title": "VTK output describes the grid", "statement": "writePlotFileVTK: behind the header follow the values of all points at their linear index, and the coordinates that a reader computes from origin and spacing are those of the grid points. DFGPlotFileWriter: the extent of a piece is the box of the process and its values are those of the points of the extent, in the order of VTK.", "quantifier": "for all levels, decompositions, ranks, values, headers, up to three dimensions for the pieces", "why_tests_cant": "The output is only looked at; the coordinates are wrong only for grids without or with one-sided boundary.", "anchors": ["src/fullgrid/DistributedFullGrid.hpp:1474-1541", "src/vtk/DFGPlotFileWriter.hpp:123-175", "src/vtk/DFGPlotFileWriter.hpp:288-315"]}
{"id": "C100", "title": "Values written to a compressed file are read back and reduced value by value", "statement": "writeCompressedValuesConsecutive on all processes, then readCompressedValuesConsecutive (or readReduceCompressedValuesConsecutive) on as many processes: every process gets exactly the values it wrote (or its memory combined with them by the reduction function, value by value), whatever the memory and the file contained before, and although the frames have different sizes.", "quantifier": "for all numbers of processes, numbers of values per process, sizes of a value, values, orders of the writes, previous files, reduction functions, lossless codecs with headers of constant size", "why_tests_cant": "Tests use few values, the same number on every process and double; a process without values throws, and complex values overrun the buffer only with more than 8 MiB per process.", "anchors": ["src/io/MPICompression.hpp:38-62", "src/io/MPICompression.hpp:66-124", "src/io/MPICompression.hpp:149-260", "src/io/MPICompression.hpp:265-400"]}
{"id": "C101", "title": "The interpolated combined solution has the right value at every point of every component grid", "statement": "interpolateValues at the coordinates of a grid point of any component grid, in the whole system of groups, processes and tasks: if the tasks hold samples of a function, the result is the value of the function there, although most tasks do not have this point; if the tasks agree at common points, the result is the value of the task at its point; after a combination with hat functions this is always so, whatever the tasks held before.", "quantifier": "for all dimensions, setups, decompositions, groups, tasks, functions, data, variants of the combination, chunk sizes, orders, component grids and grid points; for all schemes of the library (adaptive, classical and fault tolerant classical)", "why_tests_cant": "Tests interpolate a smooth function and compare with a tolerance; that the value is exact at all points of all grids for every function needs the telescoping of the coefficients over all lower levels.", "anchors": ["src/manager/InterpolationWorker.hpp:11-47", "src/fullgrid/DistributedFullGrid.hpp", "src/combischeme/CombiMinMaxScheme.hpp"]}
{"id": "C102", "title": "A combination gives every task the interpolated combined solution, and this solution does not change", "statement": "With hat functions, hierarchized in the dimensions in which the levels of the tasks differ: after combine every task has, at each of its grid points, exactly the value that interpolateValues gave there before; and interpolateValues gives the same value before and after combine at every coordinate of the domain, on and off the grids. Subspaces that only one task (with coefficient one) has may be missing in the sparse grid. Without hierarchization in such a dimension the interpolated solution changes.", "quantifier": "for all dimensions, setups, decompositions, groups, tasks, data, variants of the combination, chunk sizes, orders, coordinates; for all schemes of the library", "why_tests_cant": "A test compares norms or a few points before and after, with a tolerance; equality of the two piecewise multilinear functions everywhere needs the surpluses of every interpolant on every other grid.", "anchors": ["src/manager/ProcessGroupWorker.cpp:476-490", "src/manager/InterpolationWorker.hpp:11-47", "src/hierarchization/DistributedHierarchization.hpp", "src/sparsegrid/DistributedSparseGridUniform.hpp"]}
{"id": "C103", "title": "parallelEval writes the combined solution", "statement": "After combine with the sparse grid reduction, parallelEval by any process group on any level up to LMax (also one that no task has): the value computed at each grid point is the dehierarchized one of the combined coefficients of the subspaces in the sparse grid; with hat functions, hierarchized where the level exceeds that of a task, the .raw file contains, at the place of each grid point, exactly the value that interpolateValues gave for its coordinates before combine. This holds for the file of the first solution (grid number 0) always, and for those of the others if tasks and sparse grid have all subspaces of the level. Otherwise the files of the others mix in the previous solution, because the grid is not set to zero in between. With the subspace and outgroup reductions a group writes only the subspaces that it has itself.", "quantifier": "for all dimensions, setups, decompositions, groups, tasks, data, histories of combinations and moved tasks, evaluation levels, numbers of solutions, orders of writing, previous contents of the file", "why_tests_cant": "Tests write one solution on one level and look at the file, if at all, with a tolerance; that a coarse combination reproduces the interpolated sum at all points of an arbitrary finer grid on any decomposition, and the pollution of a second solution, are outside of what they see.", "anchors": ["src/manager/SparseGridWorker.hpp:627-645", "src/manager/SparseGridWorker.hpp:758-783", "src/manager/ProcessGroupWorker.cpp:567-583", "src/fullgrid/DistributedFullGrid.hpp:1306-1341"]}
{"id": "C104", "title": "Recovery of the communicators after failed processes", "statement": "recoverCommunicators, after any failure of worker processes in which at least one process group is left, ends on all living processes whatever the order in which the manager receives the ranks. It reports a successful recovery to the manager if and only if at least as many processes wait for reuse as have failed. If so, the world communicator keeps its size, every living process keeps its world rank and each failed rank is taken by a process that was waiting. If not, the world communicator consists of the groups without failed processes, unchanged and in their order, followed by the manager, and the manager keeps one process group entry for each of them. After any sequence of failures and recoveries the world is a whole number of groups followed by the manager, the manager is the last process of the world and of the spare communicator, the local communicator of every worker is its group, entry i of the manager's list has the rank in the global communicator of the master of group i, and the list of reusable ranks is exactly the list of the ranks of the living processes outside of the world.", "quantifier": "for all numbers and sizes of groups, sequences of failures and recoveries, sets of failed processes, arrival orders of messages", "why_tests_cant": "The fault tolerance tests kill one chosen process of a fixed setup with no or one spare; the arrival orders are those that happen to occur. Ranks that go wrong only after several recoveries, with mixed successes, are never reached.", "anchors": ["src/mpi/MPISystem.cpp:717-880", "src/mpi/MPISystem.cpp:483-620", "src/mpi/MPISystem.cpp:622-689", "src/manager/ProcessManager.cpp:300-340"]}
{"id": "C105", "title": "Failed groups are restored when enough processes wait", "statement": "A process group with failed processes is restored by recoverCommunicators if at least as many processes wait for reuse as have failed in the group. This holds if it is the only failed group. With several failed groups it does not: the groups are restored together or not at all, so that a group is given up although the waiting processes would complete it. A process that fails while it waits for reuse makes the next recovery wait forever.", "quantifier": "for all numbers and sizes of groups, sequences of failures and recoveries, sets of failed processes, arrival orders of messages", "why_tests_cant": "The state with several failed groups and some, but too few, waiting processes needs a particular history of failures; tests have a single failure.", "anchors": ["src/mpi/MPISystem.cpp:757-804", "src/mpi/MPISystem.cpp:557-575", "src/manager/ProcessManager.cpp:300-340"]}
{"id": "C106", "title": "Several systems combine through files in chunks as one system", "statement": "Two or three systems in the variant chunkedOutgroupSparseGridReduce, each with up to 256 process groups, agree on the subspaces that at least two of them have, and combine chunk by chunk: every system sums the chunks of its groups, its output group keeps the common subspaces in the extra sparse grid, writes them, adds the files of the others, and broadcasts the sums chunk by chunk to its groups. If every process has points of a common subspace, all processes need the same number of reads, older files are not longer than the new ones and all token files appear eventually, then the start and every later combination succeed on all systems, for any chunk size and any distribution of the tasks, also with groups that share no subspace with another group. Afterwards every task of every system has, at the points of the sparse grid's subspaces, the weighted sum over the tasks of all systems. These are the values that one system with all the tasks would have, and those of the variant sparseGridReduce. Values on which all systems agreed before stay as they are, if the coefficients of all systems add up to one; after any combination all systems agree.", "quantifier": "for all dimensions, levels, task distributions to systems, groups and processes, output groups, chunk and buffer sizes, orders of parallel writes, delays of token files, contents of older files, and numbers of solve and combine steps", "why_tests_cant": "Tests run this variant with a few chunk sizes on fixed schemes in which all groups share subspaces; they cannot cover all distributions of subspaces that are common to groups, to systems, to both or to none, which take different paths.", "anchors": ["src/manager/ProcessGroupWorker.cpp:491-526", "src/manager/ProcessGroupWorker.cpp:841-894", "src/manager/ProcessGroupWorker.cpp:966-1000", "src/manager/SparseGridWorker.hpp:364-612", "src/sparsegrid/AnyDistributedSparseGrid.cpp:154-219"]}
{"id": "C107", "title": "Combining several whole systems through files in chunks, with hierarchization, equals the combination technique on all their tasks", "statement": "Two or three whole systems with the same processes per group, decomposition and sparse grid hierarchize, exchange their sparse grids in the variant chunkedOutgroupSparseGridReduce and dehierarchize. If every task has points on every rank and two systems have a task each whose common subspaces belong to the sparse grid, then every process has points that go into the files, however the tasks are distributed and decomposed. In every state that can be reached by computing and combining the combination succeeds, and afterwards every task of every system has at every grid point the value of the combined hierarchical coefficients of the tasks of all systems. One system with the same tasks, and several systems in the variant sparseGridReduce, get the same values. With hat functions, samples of one function on the grids of a combination scheme stay as they are; a second combination changes nothing; and with conservative bases the combined integral over all systems stays the same and every task has it.", "quantifier": "for all numbers of dimensions, levels, boundary types, bases, decompositions, task distributions to systems and up to 256 groups, output groups, chunk and buffer sizes, orders of parallel writes, delays of token files, contents of older files and work buffers, and numbers of solve and combine steps", "why_tests_cant": "The widely-distributed tests run two systems on a few small schemes and compare with tolerances; they cannot show that no decomposition leaves a process without common points, which would make the output group throw.", "anchors": ["src/manager/ProcessGroupWorker.cpp:491-535", "src/manager/ProcessGroupWorker.cpp:726-732", "src/manager/ProcessGroupWorker.cpp:841-894", "src/manager/SparseGridWorker.hpp:364-612", "src/fullgrid/DistributedFullGrid.hpp:615-658"]}
{"id": "C108", "title": "The report of the extreme coefficients per subspace", "statement": "writeSparseGridMinMaxCoefficients writes a file with one line per subspace. After any sequence of combinations (with or without collecting coefficients), changes of the sparse grids and earlier reports, the file contains exactly one line for every subspace that has coefficients on some process of some group and no others, and the minimum and the maximum in the line are the extreme coefficients of that subspace over all processes, among the states collected since the last report (or the present one if nothing was collected). The report can be requested by the workers and through the manager, at any time.", "quantifier": "for all numbers of groups and processes, level sets, sequences of collections, changes and reports on any process, and all contents of the sparse grids", "why_tests_cant": "The tests request the report and never open the file; whether it exists, and whether the extremes are right, depends on the number of groups, on the sign of the data and on the history of earlier reports.", "anchors": ["src/sparsegrid/DistributedSparseGridIO.hpp: writeMinMaxCoefficents", "src/sparsegrid/DistributedSparseGridUniform.hpp: accumulateMinMaxCoefficients", "src/manager/SparseGridWorker.hpp: writeMinMaxCoefficients, collectReduceDistribute", "src/manager/ProcessManager.cpp: writeSparseGridMinMaxCoefficients"]}
{"id": "C109", "title": "Corner values and boundary flags of a distributed full grid", "statement": "getCornersGlobalVectorIndices returns the 2^d multi-indices made of first and last indices, without repetition, in the order in which corner k takes the last index of dimension j exactly if bit d-1-j of k is set. getCornersValues returns on every process the values of the grid at these points in this order, for every decomposition. isGlobalLinearIndexOnBoundary and isLocalLinearIndexOnBoundary flag dimension j of a point exactly if the grid has both boundaries in that dimension and the point has the first or the last index there.", "quantifier": "for all numbers of dimensions, sizes, boundary types, decompositions, process numbers and grid values", "why_tests_cant": "Tests check the sum of few corner values on few decompositions.", "anchors": ["src/fullgrid/DistributedFullGrid.hpp: getCornersGlobalVectorIndices, getCornersValues, isGlobalLinearIndexOnBoundary, isLocalLinearIndexOnBoundary"]}
{"id": "C110", "title": "Time measurements: the files are complete JSON and every event is reported once", "statement": "The file that write or writePartial makes of the parts of all processes is one JSON object with one member per rank, which holds the attributes and the events of that process; writePartial only writes events that ended after the last partial write and leaves out names without any. The root collects the parts in order of the ranks, if and only if they have less than 2^31 bytes together. If the clock advances between any two operations and events of the same name are not nested, the partial writes of a process together contain every event that was stopped before the last write exactly once, in order; the files are numbered from 0 without gaps. After stopEvent, getDuration is the time since the matching startEvent.", "quantifier": "for all sequences of operations with their times, names, attributes, iteration orders of the maps, process numbers and file sizes", "why_tests_cant": "Tests write a few events once and do not parse the files; equal clock values and large files do not happen in them.", "anchors": ["src/utils/Stats.hpp: startEvent, stopEvent, getDuration, setAttribute, write, writePartial", "src/io/FileInputOutput.cpp: writeConcatenatedFileRootOnly"]}
{"id": "C111", "title": "Monte Carlo interpolation by two systems: common points, the same sums, no deadlock", "statement": "Two systems that call monteCarloThirdLevel with the same number of points, both compiled with or both without assertions, never deadlock with the third level manager, whatever the interleaving of the three programs and whichever system is served first; every execution ends, with all messages received. Then both systems have the same coordinates, those that one of them has drawn, and at each of them the same value, the sum of what both systems interpolate there. Coordinates that are serialized to one array are split into the same points again, and getCoordinatesFromRankZero gives every process the points that the first one has read.", "quantifier": "for all numbers of points and dimensions, all points, all interpolants of both systems, all interleavings, all numbers of processes", "why_tests_cant": "The tests run the exchange once, on one machine, with one interleaving and one build; the sums are not compared with both interpolants.", "anchors": ["src/manager/ProcessManager.cpp: monteCarloThirdLevel", "src/utils/MonteCarlo.cpp: serializeInterpolationCoords, deserializeInterpolationCoords", "src/io/BroadcastParameters.cpp: getCoordinatesFromRankZero", "third_level_manager/thirdLevelManager.cpp: processAnyData"]}
{"id": "C112", "title": "Fault simulator: all living processes learn of the same dead processes", "statement": "The successors and predecessors of the processes of a communicator form a tree: every process but the root is a successor of exactly one process, which is its predecessor. Whatever the order in which messages arrive, every process, dead or alive, finishes the reduction of Sim_FT_Check_dead_processes and receives the message of the root. The root gets the number of dead processes, the largest number of pending non-blocking collectives and a rank that has that many, and, if all living processes call the same operation, this operation. After the check all living processes have the same list of dead processes, that of the root, and MPI_ERR_PROC_FAILED is returned if and only if it is not empty; an acknowledgement of failures survives only if no failure is new; after any number of checks they know all failures so far. The list of non-blocking collectives is received as it was sent. MPI_Comm_agree gives the conjunction of all flags.", "quantifier": "for all numbers of processes, roots, numbers of successors, sets of dead processes, operations, orders of messages and sequences of checks", "why_tests_cant": "The fault simulator has no tests; the wrong predecessors need at least eight processes and a root other than the first.", "anchors": ["src/mpi_fault_simulator/MPI-FT.cpp: Sim_FT_Check_dead_processes, Sim_FT_Custom_Reduce, Sim_FT_Custom_Ireduce, customReduceOp, Bcast_Get_Successors, Bcast_Get_Predecessor, Sim_FT_kill_me", "src/mpi_fault_simulator/MPI-FT_ULFM.cpp: MPI_Comm_agree"]}
{"id": "C113", "title": "Bit flips of the fault simulator hit exactly the drawn number of bits", "statement": "Sim_FT_Manipulate_bits inverts as many different bits of the array as getAmountOfFlips gives, all of them inside the array, and leaves every other bit and the length as they are. Every set of bits can be the result, for suitable random numbers. Flipping a bit twice restores the array, and elements remain ints.", "quantifier": "for all arrays, all numbers of flips and all random numbers in the ranges of their distributions", "why_tests_cant": "The positions are random and the seed comes from the system; a test sees a few draws.", "anchors": ["src/mpi_fault_simulator/MPI-FT_bitflips.cpp: Sim_FT_Manipulate_bits, flipBit"]}
{"id": "C114", "title": "Fault simulator: all processes call the same non-blocking collectives before a communicator is freed", "statement": "If every process of a communicator, dead or alive, has called the beginning of one common sequence of non-blocking collectives, then in MPI_Comm_free the root asks a process that has called the most, and every process that gets the root's message, and the root itself, calls exactly those collectives it has not called yet, with the same type, count, datatype, root and operation. So all have called the same sequence and MPI_Waitall can complete.", "quantifier": "for all numbers of processes, sequences of collectives, numbers of calls already made by each process, and dead processes", "why_tests_cant": "The fault simulator has no tests; a process must die between two non-blocking collectives of the others.", "anchors": ["src/mpi_fault_simulator/Sim_FT_comm_free.cpp: Sim_FT_MPI_Comm_free", "src/mpi_fault_simulator/MPI-FT.cpp: Sim_FT_Perform_nb_operations, Datatype_to_Dtype, MOp_to_Op, Op_to_MOp", "src/mpi_fault_simulator/Sim_FT_iallreduce.cpp: Sim_FT_MPI_Iallreduce", "src/mpi_fault_simulator/Sim_FT_ibcast.cpp: Sim_FT_MPI_Ibcast"]}
{"id": "C115", "title": "The norms that the manager reports belong to the right tasks", "statement": "However tasks were added (runfirst, addTask, recompute), moved between groups (reschedule) and removed, and however groups failed and were reinitialized or given up: manager and process group list the same tasks in the same order, in every group that has not failed since its tasks were sent. Therefore getLpNorms, which matches the norms of a group with the tasks of the manager by their position only, gives for every task the norm of this task and nothing else, and getLpNorm is the sum of the norms with the coefficients of their own tasks. rescheduleRemoveTask always gets the task it asks for.", "quantifier": "for all sequences of operations on any number of groups, all tasks with different ids, all norms and coefficients", "why_tests_cant": "The order of two lists in different programs after arbitrary histories of faults and rescheduling; a wrong assignment gives plausible numbers.", "anchors": ["src/manager/ProcessGroupManager.cpp: getLpNorms, storeTaskReferenceAndSendTaskToProcessGroup, refreshTask, rescheduleRemoveTask", "src/manager/ProcessManager.cpp: getLpNorms, getLpNorm, reInitializeGroup, reschedule", "src/manager/ProcessGroupWorker.cpp: wait", "src/manager/TaskWorker.hpp: getLpNorms, initializeTask, removeTask"]}
{"id": "C116", "title": "File names that the manager sends arrive at the parameters they are meant for", "statement": "After the signals COMBINE_WRITE_DSGS, COMBINE_READ_DSGS_AND_REDUCE, COMBINE_THIRD_LEVEL_FILE, INTERPOLATE_VALUES_AND_WRITE_SINGLE_FILE and WRITE_INTERPOLATED_VALUES_PER_GRID each argument of the function that the group calls is the string, or the coordinates, that the manager sent for it, and the group does not wait for ever.", "quantifier": "for all names and coordinates, all orders of evaluation of function arguments that C++ allows, and both kinds of sends (buffered, or waiting for the receive)", "why_tests_cant": "One compiler evaluates in one order, and small messages are buffered.", "anchors": ["src/manager/ProcessGroupWorker.cpp: wait, receiveStringFromManagerAndBroadcastToGroup, receiveAndBroadcastInterpolationCoords", "src/manager/ProcessGroupManager.cpp: combineThirdLevelFileBased, combineThirdLevelFileBasedWrite, combineThirdLevelFileBasedReadReduce, interpolateValues, writeInterpolatedValuesPerGrid"]}
{"id": "C117", "title": "All workers get the combination parameters of the manager", "statement": "However the parameters of the manager were built and changed (constructors, setCoeff, setLevelsCoeffs, setParallelization, setDecomposition, setHierarchicalBases): after updateCombiParameters every worker of every group answers every query of its parameters (dimension, levels, boundary, coefficient and level of every task ID, dimensions and bases of the hierarchization, parallelization, decomposition, variant, chunk size, reduction of the levels, third level host, port and group, getID and getCombiDict) like the manager, whatever parameters it had before, and its basis functions are alive.", "quantifier": "for all parameters, numbers of groups and workers, all earlier states of the workers and all contents of uninitialized memory", "why_tests_cant": "A member that is missing in serialize keeps its default, which is the value most tests use.", "anchors": ["src/manager/CombiParameters.hpp: CombiParameters, serialize, getCoeff, getLevel, getID", "src/mpi/MPIUtils.hpp: sendClass, receiveClass, broadcastClass", "src/manager/ProcessManager.cpp: updateCombiParameters", "src/manager/ProcessGroupManager.cpp: updateCombiParameters", "src/manager/ProcessGroupWorker.cpp: updateCombiParameters, setCombiParameters"]}
{"id": "C118", "title": "The basis functions of combination parameters are those that were set and stay alive", "statement": "The constructors give periodic dimensions (boundary 1) the periodic hat basis and all others the hat basis. setCombiParametersHierarchicalBasesUniform with one of the six documented names sets living basis functions of this kind in all dimensions and refuses any other name. Neither changes another member nor the basis functions of any other object.", "quantifier": "for all parameters built with the API, all names, all other objects", "why_tests_cant": "Using a deleted basis function mostly still works.", "anchors": ["src/manager/CombiParameters.hpp: CombiParameters, setHierarchicalBases, getHierarchicalBases, setCombiParametersHierarchicalBasesUniform"]}
{"id": "C119", "title": "A task is the same task on every process it is sent to", "statement": "If only the manager constructs tasks, then after any history of constructing, sending, broadcasting, sending back, finishing, initializing and deleting: two task objects with the same ID on any two processes have the same dimension, level, coefficient, boundary and fault criterion, and a newly constructed task has an ID that no other object has. Sending never fails, gives the receiver one more object with the state of isFinished, and changes no other process. The receiver's fault criterion fails at the same combinations, ranks and times as the sender's.", "quantifier": "for all histories, numbers of processes, tasks and fault criteria", "why_tests_cant": "Histories of rescheduling and recovery are many; a criterion that is not transferred completely is only seen in runs with simulated faults.", "anchors": ["src/task/Task.hpp: Task, send, receive, broadcast, serialize, count", "src/fault_tolerance/StaticFaults.hpp: serialize", "src/fault_tolerance/FTUtils.hpp: FaultsInfo::serialize", "src/fault_tolerance/WeibullFaults.cpp: failNow, init", "src/fault_tolerance/WeibullFaults.hpp: serialize"]}
{"id": "C120", "title": "A serial full grid survives its file and prints its points in order", "statement": "Reading a file that FullGrid::save wrote gives a grid with the same dimension, levels, sizes, boundary flags, offsets, values and states of creation and hierarchization, which evaluates to the same value at all coordinates, prints the same and has the basis function given to the constructor. Printing a grid of up to three dimensions gives lines of the points of the first dimension, ordered by the second and then by the third dimension.", "quantifier": "for all grids, coordinates, levels and boundary flags", "why_tests_cant": "Files of a few grids are no evidence for all levels, boundary flags and values; a member left out of the archive is seen only where it is used.", "anchors": ["src/fullgrid/FullGrid.hpp: save, serialize, FullGrid(filename, basis), print1D, print2D, print3D, print"]}
{"id": "C121", "title": "Norms of serial full grids bound the values and normalizing gives norm one", "statement": "FullGrid::getlpNorm gives for p = 0 the largest absolute value, for p > 0 the only number that is not negative and has the sum of the p-th powers as its p-th power; no absolute value of a value exceeds a norm, and it is zero for zero grids only. normalizelp divides all values by the norm, after which the norm is one.", "quantifier": "for all exponents and element vectors", "why_tests_cant": "The claim is about all vectors and all exponents.", "anchors": ["src/fullgrid/FullGrid.hpp: getlpNorm, normalizelp"]}
{"id": "C122", "title": "A VTK image of a distributed full grid has the value of every local point at its coordinates", "statement": "DFGPlotFileWriter::writePlotFile for grids of one to three dimensions: the image of a process has a tuple for every local point, the tuple of the image point that stands for a grid point (the axes are reversed) is the value of that grid point, and the position of the image point is the coordinate of the grid point.", "quantifier": "for all local sizes, origins and values", "why_tests_cant": "Images are looked at and not compared; symmetric test functions look right when the axes are swapped.", "anchors": ["src/vtk/PlotFileWriter.cpp: DFGPlotFileWriter::writePlotFile"]}
{"id": "C123", "title": "Waiting for a simulated request succeeds only with a living partner and reports every known failure", "statement": "Sim_FT_MPI_Wait on a request of Isend or Irecv: it returns success only if the operation completed with success and the partner said afterwards that it is alive, and in no test before the communicator was revoked or the partner known to be dead. It returns at the latest when one of these is known, with the code for it, and when after the completion a message of the partner is there. A process is taken as dead only if its message says so. Receiving from any source sends an alive message to the source of the message. Waiting for collective operations with dead processes, for requests that are complete, and for several requests returns as well.", "quantifier": "for all partners, and all sequences of what the tests see", "why_tests_cant": "When a failure becomes known relative to the tests of a request depends on timing.", "anchors": ["src/mpi_fault_simulator/Sim_FT_test.cpp: Sim_FT_MPI_Test", "src/mpi_fault_simulator/Sim_FT_wait.cpp: Sim_FT_MPI_Wait", "src/mpi_fault_simulator/Sim_FT_waitall.cpp: Sim_FT_MPI_Waitall", "src/mpi_fault_simulator/Sim_FT_request_free.cpp: Sim_FT_MPI_Request_free"]}
{"id": "C124", "title": "Blocking messages of the fault simulator arrive between living processes and find out dead ones", "statement": "Sim_FT_MPI_Send and Sim_FT_MPI_Recv (with a given source) between two living processes: in every order of their steps both return success, the receiver has the values that were sent, they never wait for each other forever, and no message is left for later calls. If the partner is dead, the call returns MPI_ERR_PROC_FAILED and takes it as dead. Probing before receiving returns with the number of values.", "quantifier": "for all tags, values and interleavings", "why_tests_cant": "The interleavings of the handshake depend on timing; a lost message of the handshake is a deadlock.", "anchors": ["src/mpi_fault_simulator/Sim_FT_send.cpp: Sim_FT_MPI_Send", "src/mpi_fault_simulator/Sim_FT_recv.cpp: Sim_FT_MPI_Recv", "src/mpi_fault_simulator/Sim_FT_probe.cpp: Sim_FT_MPI_Probe", "src/mpi_fault_simulator/MPI-FT.cpp: answers of dead processes to alive messages"]}
{"id": "C125", "title": "Receiving from any source in the fault simulator reacts to failures, messages and revoked communicators", "statement": "Sim_FT_MPI_Recv with MPI_ANY_SOURCE: it returns success only after a status message of a living process, which is then sent an alive message, and with no failure that is known and not acknowledged. It returns at the latest when such a failure is known, a message is there or the communicator is revoked; failures are reported before messages and messages before a revoked communicator. A process whose message says that it is dead is taken as dead.", "quantifier": "for all sequences of what the passes of the loop see", "why_tests_cant": "When failures and messages become known relative to the passes of the loop depends on timing.", "anchors": ["src/mpi_fault_simulator/Sim_FT_recv.cpp: Sim_FT_MPI_Recv"]}
{"id": "C126", "title": "Values of a distributed sparse grid written to one file per process are read back", "statement": "If a process writes the values of its sparse grid with writeToDiskChunked and later reads with readFromDiskChunked and the same prefix, it has the values it wrote, whatever the processes write, read and change in between. All processes of a sparse grid can write and read with one prefix, in any order. Sparse grids with different prefixes have different files. A file with a wrong number of values is not accepted.", "quantifier": "for all values, prefixes, numbers of processes and orders of writing, reading and changing", "why_tests_cant": "The test has one prefix and few processes; which names coincide depends on the digits of ranks and prefixes.", "anchors": ["src/sparsegrid/DistributedSparseGridIO.hpp: writeToDiskChunked, readFromDiskChunked"]}
{"id": "C127", "title": "In a revoked communicator of the fault simulator nobody waits for an answer", "statement": "The background operations of a process that knows that the communicator is revoked answer every alive message it gets exactly once, with its tag and COMM_IS_REVOKED, and every part of a reduction of Check_dead_processes with the next operation RevokedComm; they send nothing else. The answers are finitely many, and when no process can take a message any more, all questions are answered. The status messages that are taken are always alive messages.", "quantifier": "for all messages, numbers of processes, orders of calls and choices of the probes", "why_tests_cant": "Which of several messages a probe finds and how the calls of the processes interleave depends on timing.", "anchors": ["src/mpi_fault_simulator/MPI-FT.cpp: Sim_FT_Perform_background_operations"]}
