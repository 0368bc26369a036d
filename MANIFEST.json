{
 "claims": [
  {
   "property": "C01",
   "status": "proved",
   "theorems": [
    "C01_vector_roundtrip",
    "C01_linear_roundtrip",
    "C01_linear_range",
    "C01_column_major",
    "C01_both_conversions_agree",
    "C01_local_to_global",
    "C01_local_to_global_injective"
   ],
   "note": "Round trips, range, column-major formula and local/global conversion for all extents."
  },
  {
   "property": "C02",
   "status": "proved",
   "theorems": [
    "C02_rank_coords_bijection",
    "C02_coords_rank_bijection",
    "C02_unique_owner",
    "C02_axis_search_agrees",
    "C02_boxes_tile",
    "C02_local_sizes_sum"
   ],
   "note": "MPI_Cart_coords enters by its specification (row major, no reordering)."
  },
  {
   "property": "C03",
   "status": "proved",
   "theorems": [
    "C03_default_valid",
    "C03_default_refused",
    "C03_default_balanced"
   ],
   "note": "Double arithmetic of the code is modelled by exact quotients."
  },
  {
   "property": "C04",
   "status": "proved",
   "theorems": [
    "C04_downsample_keeps_owner",
    "C04_downsample_keeps_owner_nd"
   ],
   "note": "All levels, boundary types and decompositions; double arithmetic modelled exactly."
  },
  {
   "property": "C05",
   "status": "proved",
   "theorems": [
    "C05_level_is_coarsest",
    "C05_predecessors",
    "C05_boundary_no_predecessor"
   ],
   "note": ""
  },
  {
   "property": "C06",
   "status": "proved",
   "theorems": [
    "C06_subspaces_tile",
    "C06_listed_under_its_level",
    "C06_finer_subspaces_empty",
    "C06_all_processes"
   ],
   "note": ""
  },
  {
   "property": "C07",
   "status": "proved",
   "theorems": [
    "C07_nodal_is_sum_of_hierarchical",
    "C07_nodal_formula",
    "C07_combi_dof_agrees",
    "C07_sg_dof_agrees"
   ],
   "note": "Nodal, hierarchical and table-driven counts; integer overflow not modelled."
  },
  {
   "property": "C08",
   "status": "proved",
   "theorems": [
    "C08_downset_members",
    "C08_downset_sorted",
    "C08_downset_nodup",
    "C08_downset_count"
   ],
   "note": ""
  },
  {
   "property": "C09",
   "status": "proved",
   "theorems": [
    "C09_truncated_members",
    "C09_truncated_closed_form",
    "C09_truncated_sorted",
    "C09_truncated_downward_closed"
   ],
   "note": ""
  },
  {
   "property": "C10",
   "status": "partial",
   "theorems": [
    "C10_classical_partition_of_unity_partial",
    "C10_classical_no_duplicates",
    "C10_classical_partition_of_unity_refuted"
   ],
   "note": "Proved for every lmin <= lmax except lmin = lmax, also with fault-tolerance grids. Refuted for lmin = lmax: the code stores a coefficient but no grid."
  },
  {
   "property": "C11",
   "status": "partial",
   "theorems": [
    "C11_dummy_levels_partial",
    "C11_dummy_levels_refuted"
   ],
   "note": "Proved for dummy dimensions that precede all others. Refuted in general: the i-th dummy dimension receives lmax[i] instead of lmax[dummyDims[i]]."
  },
  {
   "property": "C12",
   "status": "partial",
   "theorems": [
    "C12_coefficient_loop_partial",
    "C12_coefficient_loop_refuted"
   ],
   "note": "Proved for at most 255 component grids. Refuted beyond: the loop counter is an 8-bit integer and wraps, so the loop never ends."
  },
  {
   "property": "C13",
   "status": "proved",
   "theorems": [
    "C13_adaptive_inclusion_exclusion",
    "C13_adaptive_scheme_partition_of_unity"
   ],
   "note": ""
  },
  {
   "property": "C14",
   "status": "partial",
   "theorems": [
    "C14_adaptive_covers_range_partial",
    "C14_adaptive_covers_range_refuted"
   ],
   "note": "Proved when lmax-lmin is the same in all dimensions. Refuted for anisotropic ranges."
  },
  {
   "property": "C15",
   "status": "proved",
   "theorems": [
    "C15_classical_down_set",
    "C15_adaptive_down_set"
   ],
   "note": ""
  },
  {
   "property": "C16",
   "status": "partial",
   "theorems": [
    "C16_third_level_split_partial",
    "C16_third_level_split_refuted"
   ],
   "note": "Proved whenever the fractions are non-negative and their sum deviates from 1 by less than half a grid of the scheme (in particular for an exact sum). Refuted for the tolerance 1e-3 that the code asserts. Doubles modelled by rationals."
  },
  {
   "property": "C17",
   "status": "proved",
   "theorems": [
    "C17_round_robin_partition",
    "C17_assigned_partition",
    "C17_load_balanced_partition"
   ],
   "note": "Round robin, assignment from file and greedy balancing; std::sort by its specification (any permutation)."
  },
  {
   "property": "C18",
   "status": "partial",
   "theorems": [
    "C18_kernels_inverse",
    "C18_biorthogonal_inverse",
    "C18_pole_roundtrip",
    "C18_nonperiodic_one_sided_refuted"
   ],
   "note": "Proved for all six bases, boundary types, minimum levels and data (levels up to 28, the range of the powerOfTwo table) on the grids a basis is meant for. The refuted theorem shows why the restriction is needed: the non-periodic full weighting (and the biorthogonal basis dispatched to it) loses data on one-sided grids, which the code does not reject."
  },
  {
   "property": "C19",
   "status": "proved",
   "theorems": [
    "C19_state_is_grid_function",
    "C19_roundtrip",
    "C19_hat_roundtrip"
   ],
   "note": "Whole distributed grids in any dimension; data condition suitableGrid is only about the non-periodic bases on one-sided boundaries (see C18). Rounding not modelled."
  },
  {
   "property": "C20",
   "status": "proved",
   "theorems": [
    "C20_full_weighting_mass",
    "C20_biorthogonal_mass",
    "C20_truncation_keeps_mass"
   ],
   "note": "Proved for the full weighting and biorthogonal kernels, periodic and not; any change of coefficients above lmin keeps the integral."
  },
  {
   "property": "C21",
   "status": "proved",
   "theorems": [
    "C21_distributed_pole_equals_serial",
    "C21_distribution_independent"
   ],
   "note": "One pole and whole d-dimensional grids; any two process grids and decompositions, serial being the special case of one process."
  },
  {
   "property": "C22",
   "status": "proved",
   "theorems": [
    "C22_sends_match_receives",
    "C22_messages_well_formed"
   ],
   "note": ""
  },
  {
   "property": "C23",
   "status": "partial",
   "theorems": [
    "C23_layout",
    "C23_offset_overflow_refuted",
    "C23_sizes_from_file_refuted"
   ],
   "note": "proved for all histories with totals below 2^32; refuted beyond (32-bit offset wraps around) and for sizes read from a file into an allocated sparse grid (data not released)"
  },
  {
   "property": "C24",
   "status": "partial",
   "theorems": [
    "C24_lookup_correct",
    "C24_missing_first_level_refuted",
    "C24_nonmonotonic_schedule_refuted"
   ],
   "note": "proved for threads that get ascending levels and sparse grids whose first level precedes all queries; refuted without the second condition (search starts before the first level) and for non-monotonic schedules, which OpenMP permits"
  },
  {
   "property": "C25",
   "status": "proved",
   "theorems": [
    "C25_scatter_gather",
    "C25_roundtrip"
   ],
   "note": "for levels with the all-ones level first, sizes and total below 2^32, ascending threads"
  },
  {
   "property": "C26",
   "status": "proved",
   "theorems": [
    "C26_projection",
    "C26_idempotent",
    "C26_scheme_projection"
   ],
   "note": "For every variant and every state reachable by computing and combining: consistent values are unchanged if the coefficients above every subspace add up to one (C26_projection); after any step the values are consistent, and a second step changes nothing (C26_idempotent); for the classical, fault-tolerant and adaptive schemes of the library the condition holds (C26_scheme_projection). Hypotheses: what the variants need (variantFits)."
  },
  {
   "property": "C27",
   "status": "proved",
   "theorems": [
    "C27_assignment_independent"
   ],
   "note": "Tasks assigned to groups in any two ways, with any variants, chunk sizes and orders of the reductions, have equal values after combining."
  },
  {
   "property": "C28",
   "status": "partial",
   "theorems": [
    "C28_buffer_covered_once",
    "C28_subspaces_covered_once",
    "C28_wrap_refuted"
   ],
   "note": "Exactly-once for buffers and for lists of subspaces with fewer than 2^31 points each. With larger subspaces the uint32_t sum wraps (C28_wrap_refuted)."
  },
  {
   "property": "C29",
   "status": "partial",
   "theorems": [
    "C29_chunk_size_partial",
    "C29_no_limit",
    "C29_overflow_refuted"
   ],
   "note": "The result is exact as long as it fits into an int (C29_chunk_size_partial); larger limits overflow (C29_overflow_refuted): 32 GiB in double precision give 0."
  },
  {
   "property": "C30",
   "status": "partial",
   "theorems": [
    "C30_subspace_communicators",
    "C30_outgroup",
    "C30_outgroup_refuted",
    "C30_ingroup"
   ],
   "note": "Subspace communicators: exactly one per shared subspace, members exactly the groups with points, consistent among members. Outgroup: exact set of subspaces and sizes; a group without shared subspace does not join the communicator of all groups (C30_outgroup_refuted)."
  },
  {
   "property": "C31",
   "status": "partial",
   "theorems": [
    "C31_start",
    "C31_combination_step",
    "C31_variants_agree",
    "C31_large_buffers_refuted"
   ],
   "note": "Every variant ends and gives the weighted sum over all tasks (C31_combination_step), in any order of the communicators, any chunk size; two variants agree at all points. Assumes variantFits: buffers below 2^31 elements, at most 256 groups, and for the outgroup variants that all or none of the groups share a subspace. Beyond: C31_large_buffers_refuted (int displacements), C30_outgroup_refuted."
  },
  {
   "property": "C32",
   "status": "proved",
   "theorems": [
    "C32_interpolation",
    "C32_grid_points"
   ],
   "note": "Levels 1..28 (tables), coordinates in [0,1], below 1 in dimensions with one-sided boundary (see C33). C32_grid_points: at grid points the stored value is returned."
  },
  {
   "property": "C33",
   "status": "partial",
   "theorems": [
    "C33_upper_end_refuted"
   ],
   "note": "False of the code for every periodic grid: the result at coordinate 1 is 0 (C33_upper_end_refuted)."
  },
  {
   "property": "C34",
   "status": "partial",
   "theorems": [
    "C34_max_norm",
    "C34_p_sum",
    "C34_l1_of_constant",
    "C34_two_norm_of_constant_refuted",
    "C34_decomposition_independent",
    "C34_combined_norm"
   ],
   "note": "Maximum norm and the weighted sum under the p-th root are proved to be those of the whole grid for every decomposition; the p-th root itself (floating point pow) is not modelled. For p = 1 the value is the exact integral for constant functions; for p = 2 the scaling is wrong (C34_two_norm_of_constant_refuted), as a comment in the code admits."
  },
  {
   "property": "C35",
   "status": "proved",
   "theorems": [
    "C35_local_comm",
    "C35_reduce_comm",
    "C35_one_to_one",
    "C35_manager",
    "C35_masters"
   ],
   "note": "MPI_Comm_split, MPI_Group_incl and MPI_Comm_create by their specification."
  },
  {
   "property": "C36",
   "status": "partial",
   "theorems": [
    "C36_diagonal",
    "C36_file_parts_partial",
    "C36_file_parts_refuted"
   ],
   "note": "The diagonal ranks are proved for all sizes. Several file parts are right where their number divides the number of processes per group and wrong otherwise (refuted: one communicator, different part numbers)."
  },
  {
   "property": "C37",
   "status": "partial",
   "theorems": [
    "C37_file_contents",
    "C37_round_trip",
    "C37_large_part_refuted",
    "C37_read_reduce_partial"
   ],
   "note": "Round trip for every history of a new, replaced or not longer file, every order of arrival and every sizes below 2^31 values per process. Reduction for the buffers with equally many reads on all processes (partial, see C39). Refuted for a process with 2^31 to 2^32-1 values: the count is cast to int, nothing is written."
  },
  {
   "property": "C38",
   "status": "partial",
   "theorems": [
    "C38_shorter_refuted",
    "C38_replaced_partial"
   ],
   "note": "Refuted: an existing longer file keeps its length and the size check throws. Proved with replaceExistingFile=true."
  },
  {
   "property": "C39",
   "status": "partial",
   "theorems": [
    "C39_matched_reads_partial",
    "C39_large_buffer",
    "C39_empty_buffer_refuted",
    "C39_unmatched_refuted"
   ],
   "note": "Refuted in general. Proved: a process with n values enters ceil(n/buffer) reads and the operation returns exactly if these agree; with a buffer for all values: exactly if all or none have values. A buffer of 0 never returns."
  },
  {
   "property": "C40",
   "status": "partial",
   "theorems": [
    "C40_exactly_once",
    "C40_sum_partial",
    "C40_ends_partial",
    "C40_overwrite_refuted",
    "C40_remove_refuted",
    "C40_remove_partial"
   ],
   "note": "Every announced file is read exactly once for every sequence of answers to the existence queries; with reduction the result is the own plus all announced values (for buffers with equally many reads on all processes, partial, see C39), and the loop ends once all tokens exist. Refuted: the root of part 1 removes the files of parts 10 to 19 (substring search), other parts are safe up to ten parts; with overwrite the result depends on the order of arrival."
  },
  {
   "property": "C41",
   "status": "partial",
   "theorems": [
    "C41_two_systems",
    "C41_three_systems_partial",
    "C41_three_agree",
    "C41_three_systems_refuted",
    "C41_system_sizes",
    "C41_enlarged",
    "C41_managers",
    "C41_manager_counts_partial",
    "C41_manager_counts_refuted"
   ],
   "note": "Two systems: proved for files (writing, arrival order, reading included) and for managers. Three systems: proved for sizes below 2^32/3, refuted for 2^31 (uint32 sum wraps). The manager's number of values per worker is accumulated in int: proved below 2^31, refuted at 2^31."
  },
  {
   "property": "C42",
   "status": "partial",
   "theorems": [
    "C42_no_deadlock",
    "C42_terminates",
    "C42_sum",
    "C42_empty_block_refuted",
    "C42_several_grids_refuted",
    "C42_one_grid"
   ],
   "note": "Broker and two systems as message passing programs with arbitrary interleaving (proved for any sequence of rounds: combine, unify, exchange, file). Refuted parts: a process without values makes both managers throw; with several grids the expected size is divided by the number of grids."
  },
  {
   "property": "C43",
   "status": "partial",
   "theorems": [
    "C43_assigned_once",
    "C43_runfirst",
    "C43_group_without_task_refuted"
   ],
   "note": "Proved for every interleaving; refuted part: a group can end the first round without any task although there are as many tasks as groups."
  },
  {
   "property": "C44",
   "status": "partial",
   "theorems": [
    "C44_signal_to_waiting",
    "C44_counts",
    "C44_diagnostics_refuted",
    "C44_interpolate_twice_refuted"
   ],
   "note": "Proved for orderly sequences of calls (no doDiagnostics; interpolateValues and the like only after a call that waits). Refuted for doDiagnostics, whose status answers the next signal, and for interpolateValues called twice."
  },
  {
   "property": "C45",
   "status": "proved",
   "theorems": [
    "C45_no_task_lost",
    "C45_all_calls",
    "C45_tasks_moved"
   ],
   "note": "The values of a task travel with the task (serialisation is not modelled). The moves must name known levels, each once."
  },
  {
   "property": "C46",
   "status": "partial",
   "theorems": [
    "C46_valid_moves",
    "C46_moves_accepted",
    "C46_largest_load",
    "C46_own_group_refuted",
    "C46_short_durations_refuted"
   ],
   "note": "Valid moves, acceptance by the process manager and the bound on the largest load are proved. Refuted parts: a move can name the group the task is in already, and short durations divide by zero."
  },
  {
   "property": "C47",
   "status": "partial",
   "theorems": [
    "C47_average_over_tasks_refuted",
    "C47_truncated_quotient_refuted",
    "C47_one_task_per_group"
   ],
   "note": "Refuted: the average is taken over tasks, and the quotient is truncated; proved only for one task per group."
  },
  {
   "property": "C48",
   "status": "partial",
   "theorems": [
    "C48_window",
    "C48_prognosis",
    "C48_int_sum_refuted",
    "C48_no_history_refuted"
   ],
   "note": "The window is proved for all histories and N >= 1. The prognosis is the average as long as the sum fits into an int; refuted beyond that and before the first report."
  },
  {
   "property": "C49",
   "status": "proved",
   "theorems": [
    "C49_compensation_zero"
   ],
   "note": ""
  },
  {
   "property": "C50",
   "status": "partial",
   "theorems": [
    "C50_min_correct",
    "C50_max_partial",
    "C50_max_refuted"
   ],
   "note": "minimum proved (values up to DBL_MAX); maximum proved if some value is at least numeric_limits<double>::min(); refuted otherwise (initial value is the smallest positive number)"
  },
  {
   "property": "C51",
   "status": "proved",
   "theorems": [
    "C51_partition_is_complete"
   ],
   "note": "With both boundaries only, as the code; all decompositions and level sets."
  },
  {
   "property": "C52",
   "status": "proved",
   "theorems": [
    "C52_gather"
   ],
   "note": "The full grid has the distributed grid's sizes; any order of arrival."
  },
  {
   "property": "C53",
   "status": "proved",
   "theorems": [
    "C53_mirror_boundary"
   ],
   "note": "Including one process in the dimension."
  },
  {
   "property": "C54",
   "status": "partial",
   "theorems": [
    "C54_power_table_partial",
    "C54_power_table_refuted"
   ],
   "note": "Refuted at index 29: the arrays have 30 entries and 29 initialisers. Proved for 0..28."
  },
  {
   "property": "C55",
   "status": "partial",
   "theorems": [
    "C55_global_to_local_whole_grid",
    "C55_global_to_local_refuted"
   ],
   "note": "Refuted for proper parts of a grid; holds when the process owns the whole grid."
  },
  {
   "property": "C56",
   "status": "proved",
   "theorems": [
    "C56_same_point_order"
   ],
   "note": ""
  },
  {
   "property": "C57",
   "status": "partial",
   "theorems": [
    "C57_generator_enumerates_partial",
    "C57_generator_enumerates_refuted"
   ],
   "note": "Refuted in general (levelUpTo = (1,2)); proved for all inputs where some level is smaller than the first one or all are equal."
  },
  {
   "property": "C58",
   "status": "partial",
   "theorems": [
    "C58_extents_match_registered_points_partial",
    "C58_extents_match_registered_points_refuted"
   ],
   "note": "Refuted: the comparison with >= counts the middle (last) point for the process before it when a process starts exactly there. Proved for all other decompositions and all levels > 1."
  },
  {
   "property": "C59",
   "status": "partial",
   "theorems": [
    "C59_single_grid_scheme_refuted"
   ],
   "note": "Refuted: the component grid is missing."
  },
  {
   "property": "C60",
   "status": "partial",
   "theorems": [
    "C60_classical_levels_sorted",
    "C60_classical_levels_exact_partial",
    "C60_classical_levels_exact_refuted"
   ],
   "note": "Sortedness proved for all schemes; completeness proved without dummy dimensions and refuted with them."
  },
  {
   "property": "C61",
   "status": "proved",
   "theorems": [
    "C61_conjoint_set"
   ],
   "note": ""
  },
  {
   "property": "C62",
   "status": "proved",
   "theorems": [
    "C62_greedy_balance"
   ],
   "note": "Loads below 2^63-1 as in the code's sentinel."
  },
  {
   "property": "C63",
   "status": "proved",
   "theorems": [
    "C63_poles_cover_once"
   ],
   "note": "Slices follow the MPI standard's order of subarray elements."
  },
  {
   "property": "C64",
   "status": "proved",
   "theorems": [
    "C64_interpolated_combination",
    "C64_assignment_independent"
   ],
   "note": "Exact arithmetic: compensated summation equals plain summation."
  },
  {
   "property": "C65",
   "status": "proved",
   "theorems": [
    "C65_ghost_layer",
    "C65_matched"
   ],
   "note": "Extents, contents and matching of sends and receives."
  },
  {
   "property": "C66",
   "status": "partial",
   "theorems": [
    "C66_message",
    "C66_messages",
    "C66_number",
    "C66_long_message_refuted",
    "C66_closed"
   ],
   "note": "Proved for messages below 2^31 bytes; longer ones are refuted (std::stoi)."
  },
  {
   "property": "C67",
   "status": "proved",
   "theorems": [
    "C67_forward"
   ],
   "note": ""
  },
  {
   "property": "C68",
   "status": "partial",
   "theorems": [
    "C68_receive",
    "C68_small_pieces_refuted",
    "C68_large_pieces"
   ],
   "note": "Proved exactly when every recv(2) reaches the end of an element it found started; otherwise refuted: the receive buffer is read before its beginning."
  },
  {
   "property": "C69",
   "status": "partial",
   "theorems": [
    "C69_other_byte_order_refuted"
   ],
   "note": "Refuted: reverseEndianness reads byte sizeof(T)."
  },
  {
   "property": "C70",
   "status": "proved",
   "theorems": [
    "C70_no_deadlock",
    "C70_terminates"
   ],
   "note": "For orderly sequences of calls as in C44; termination from any state."
  },
  {
   "property": "C71",
   "status": "partial",
   "theorems": [
    "C71_nothing_lost",
    "C71_average_of_all_refuted",
    "C71_window"
   ],
   "note": "Nothing is lost (proved); the average is taken over the durations since the last write only (refuted for all durations, exact window proved)."
  },
  {
   "property": "C72",
   "status": "proved",
   "theorems": [
    "C72_start",
    "C72_combination"
   ],
   "note": "One rank per position in all groups forms the global-reduce communicator; one grid per task; values exact (Qc). The variants need buffers below 2^31 elements and at most 256 groups, and the outgroup variants that all groups or none share a subspace (C30, C31)."
  },
  {
   "property": "C73",
   "status": "proved",
   "theorems": [
    "C73_distribution_independent"
   ],
   "note": "In exact arithmetic; both systems meet the requirements of C72."
  },
  {
   "property": "C74",
   "status": "proved",
   "theorems": [
    "C74_common_values_kept",
    "C74_sampled_function",
    "C74_scheme"
   ],
   "note": "Bases Hat and HatPeriodic only: with full weighting or biorthogonal bases samples are not kept in general (Example C75_ex)."
  },
  {
   "property": "C75",
   "status": "proved",
   "theorems": [
    "C75_second_combination"
   ],
   "note": "The periodic full weighting and biorthogonal bases need a one-sided boundary here (on two-sided grids they need periodic data, C18)."
  },
  {
   "property": "C76",
   "status": "proved",
   "theorems": [
    "C76_vector_index",
    "C76_linear_index",
    "C76_coordinates",
    "C76_level_index",
    "C76_level_index_injective"
   ],
   "note": ""
  },
  {
   "property": "C77",
   "status": "partial",
   "theorems": [
    "C77_eval_partial",
    "C77_inside_partial",
    "C77_full_boundary",
    "C77_grid_points",
    "C77_outside",
    "C77_one_point_refuted",
    "C77_one_sided_refuted",
    "C77_no_boundary_refuted"
   ],
   "note": "Proved: the exact function eval computes (piecewise linear, continued linearly beyond the outermost stored points) for every coordinate, except coordinates above 1/2 in a dimension other than the last that has one point (level 1 without boundary); equal to the interpolant between the stored points, at all coordinates with full boundary, at all grid points for every boundary type; 0 outside. False: C77_one_point_refuted (operator precedence at FullGrid.hpp:494 subtracts the coordinate from the product), C77_one_sided_refuted (with one-sided boundary the last cell extrapolates instead of returning to the first point), C77_no_boundary_refuted (without boundary the value does not vanish at the boundary)."
  },
  {
   "property": "C78",
   "status": "partial",
   "theorems": [
    "C78_add_partial",
    "C78_grid_eval_partial"
   ],
   "note": "For every point whose coordinates are not above 1/2 in a dimension (other than the last) in which the evaluated grid has one point: there eval itself is wrong (C77). Values are those of the continued function of C77."
  },
  {
   "property": "C79",
   "status": "partial",
   "theorems": [
    "C79_equals_distributed_partial",
    "C79_roundtrip_partial",
    "C79_one_sided_refuted"
   ],
   "note": "Boundary types 0 and 2. With a one-sided boundary it is false: C79_one_sided_refuted (the sweeps assume 2^L + 1 points; in one dimension nothing is done)."
  },
  {
   "property": "C80",
   "status": "proved",
   "theorems": [
    "C80_failed_grids_avoided",
    "C80_solvable"
   ],
   "note": "Proved for the integer program and for its relaxation; GLPK itself is taken by specification (it returns a feasible or optimal solution). The scheme must have at least one dimension in which lmin and lmax differ."
  },
  {
   "property": "C81",
   "status": "partial",
   "theorems": [
    "C81_counted_at_most_once_partial",
    "C81_counted_at_most_once_refuted"
   ],
   "note": "Partial: proved for schemes that store every level of their down set; refuted without that (classical scheme without the grids for fault tolerance: the coefficients add up to 2)."
  },
  {
   "property": "C82",
   "status": "partial",
   "theorems": [
    "C82_coefficients_after_faults_partial",
    "C82_coefficients_after_faults_refuted"
   ],
   "note": "Partial: proved for the same span in all dimensions; refuted for different spans, where the scheme contains grids twice with coefficients 1 and 0 and the program's constraint matrix is not initialised."
  },
  {
   "property": "C83",
   "status": "partial",
   "theorems": [
    "C83_failed_tasks_split_partial",
    "C83_failed_tasks_split_refuted"
   ],
   "note": "Partial: proved if a grid of the two finest diagonals fails; refuted otherwise (failed grids of coarser diagonals keep their coefficient and are neither redistributed nor recomputed)."
  },
  {
   "property": "C84",
   "status": "partial",
   "theorems": [
    "C84_restored_partial",
    "C84_recompute_restore_partial",
    "C84_restored_refuted"
   ],
   "note": "Partial: proved for schemes without repeated grids whose grids all belong to tasks, in particular for equal spans; refuted otherwise (an unknown level gets identifier 0 and overwrites the coefficient of task 0; a repeated grid ends with coefficient 0)."
  },
  {
   "property": "C85",
   "status": "partial",
   "theorems": [
    "C85_static_faults_partial",
    "C85_static_faults_refuted"
   ],
   "note": "Partial: proved if there is a rank for every iteration; refuted otherwise (read past the end of the list)."
  },
  {
   "property": "C86",
   "status": "proved",
   "theorems": [
    "C86_sum_error",
    "C86_grid_error"
   ],
   "note": "The rounding is any function with relative error u (shown to exist: truncation to p binary digits); overflow and gradual underflow of products are not modelled."
  },
  {
   "property": "C87",
   "status": "partial",
   "theorems": [
    "C87_fresh_storage_partial",
    "C87_fresh_storage_refuted",
    "C87_create_refuted"
   ],
   "note": "Partial: proved for creation after deletion, for setZero and, with elements of at most 8 bytes, for allocateDifferentSubspaces; refuted for complex elements (createKahanBuffer clears sizeof(pointer) bytes per element) and for createSubspaceData on existing storage (the old compensation is kept)."
  },
  {
   "property": "C88",
   "status": "proved",
   "theorems": [
    "C88_recovery_complete"
   ],
   "note": "No further group fails during the recovery, and MPISystem::recoverCommunicators is only visible by its result."
  },
  {
   "property": "C89",
   "status": "partial",
   "theorems": [
    "C89_combination_after_recovery_partial",
    "C89_new_coefficients_refuted"
   ],
   "note": "Refuted: the workers combine with Task::getCoefficient, which no function changes; CombiParameters are stored but not read. Proved instead: the combination is the sum over the tasks that did not fail and the recomputed ones with their original coefficients; for levels (1,1) to (3,3) with the constant solution 1 the combination is 0 instead of 1."
  },
  {
   "property": "C90",
   "status": "partial",
   "theorems": [
    "C90_no_task_lost_partial",
    "C90_no_task_lost_refuted"
   ],
   "note": "Partial: proved if a grid of the two finest diagonals is among the failed ones; refuted otherwise: the failed task disappears if the groups cannot be restored, and contains zeros with its old coefficient if they can."
  },
  {
   "property": "C91",
   "status": "proved",
   "theorems": [
    "C91_mass_combined",
    "C91_mass_conserved",
    "C91_scheme"
   ],
   "note": "Values are exact rational numbers. With hat functions the integrals of the grids differ after the combination (second part of C91_ex)."
  },
  {
   "property": "C92",
   "status": "proved",
   "theorems": [
    "C92_start",
    "C92_combination",
    "C92_as_one_system",
    "C92_projection",
    "C92_consistent"
   ],
   "note": "Variant sparseGridReduce; hierarchization before and dehierarchization after the exchange are added in C93. More than three systems throw (see C41). That processes need the same number of reads and that old files are not longer are necessary: see C39_unmatched_refuted and C38_shorter_refuted."
  },
  {
   "property": "C93",
   "status": "proved",
   "theorems": [
    "C93_start",
    "C93_combination",
    "C93_as_one_system",
    "C93_common_values_kept",
    "C93_scheme",
    "C93_second_combination",
    "C93_mass"
   ],
   "note": "Variant sparseGridReduce. All systems have the same number of processes per group and the same decomposition, as the files require."
  },
  {
   "property": "C94",
   "status": "partial",
   "theorems": [
    "C94_combination",
    "C94_distribution_independent",
    "C94_grid_filled",
    "C94_move",
    "C94_values_kept",
    "C94_other_variants_refuted",
    "C94_no_data_refuted",
    "C94_outside_refuted"
   ],
   "note": "Proved for sparseGridReduce. The _refuted theorems show the loss of data with the other reductions, before the first combination and outside the sparse grid."
  },
  {
   "property": "C95",
   "status": "partial",
   "theorems": [
    "C95_start",
    "C95_combination_partial",
    "C95_exchange_ends_partial",
    "C95_empty_process_refuted",
    "C95_total_overflow_refuted",
    "C95_as_one_system",
    "C95_projection",
    "C95_consistent"
   ],
   "note": "The combination is proved under the premise that every process has points to exchange (exchangedPoints > 0); otherwise it is refuted. The start is proved for less than 2^31 points in all; beyond, the check of the totals is refuted."
  },
  {
   "property": "C96",
   "status": "proved",
   "theorems": [
    "C96_points_to_exchange",
    "C96_start",
    "C96_combination",
    "C96_as_one_system",
    "C96_common_values_kept",
    "C96_scheme",
    "C96_second_combination",
    "C96_mass"
   ],
   "note": ""
  },
  {
   "property": "C97",
   "status": "partial",
   "theorems": [
    "C97_raw_file",
    "C97_raw_length_partial",
    "C97_file_with_header",
    "C97_header_of_tool_refuted",
    "C97_rewritten_file_refuted",
    "C97_tool_order_refuted",
    "C97_memory_beyond_refuted"
   ],
   "note": "Positions of all values, dimension byte and up to six extents are proved for all grids. Refuted: errorCalc reads the dimension as an int and gets dim + 256 * first extent, for every grid (the header was changed to one byte when DimType became uint8_t); six ints are written whatever the dimension, so below six dimensions memory behind the vector gets into the file; the file is not truncated, a longer old file keeps its end and plot_raw_slice refuses it; plot_raw_slice takes the last dimension as the fastest and finds the values of other points."
  },
  {
   "property": "C98",
   "status": "partial",
   "theorems": [
    "C98_distinct_files_partial",
    "C98_every_grid_plotted_partial",
    "C98_same_file_refuted",
    "C98_directory_refuted"
   ],
   "note": "Proved for names with a dot that do not end in .vtk. Refuted: names ending in .vtk and names without a dot are the same for all grids, so later grids overwrite earlier ones; a dot in the directory part gets the number ('./out/grid.raw' becomes '_0./out/grid.raw')."
  },
  {
   "property": "C99",
   "status": "partial",
   "theorems": [
    "C99_vtk_coordinates_partial",
    "C99_vtk_coordinates_refuted",
    "C99_pieces",
    "C99_vtk_file"
   ],
   "note": "File contents and pieces proved for all grids. Coordinates proved for two-sided boundaries; refuted for one-sided boundaries (spacing 1/(2^l - 1)) and without boundary points (also the origin), as a TODO in the code admits."
  },
  {
   "property": "C100",
   "status": "partial",
   "theorems": [
    "C100_round_trip_partial",
    "C100_empty_part_refuted",
    "C100_reduce_partial",
    "C100_reduce_doubles",
    "C100_overrun_refuted",
    "C100_overrun_complex_refuted"
   ],
   "note": "LZ4 is taken by specification (lossless, header frame of constant size, decompresses as much as there is room for). Reading back is proved if every process has a value; refuted otherwise (one round of decompression instead of two is taken for an error). Reducing is proved for values whose size divides that of the buffer, in particular 4 and 8 bytes, or if the content fits; refuted for 16 bytes (complex of double) and more than 8421544 bytes on a process, where the decompressor writes beyond the buffer."
  },
  {
   "property": "C101",
   "status": "proved",
   "theorems": [
    "C101_function",
    "C101_common_values",
    "C101_after_combination",
    "C101_scheme"
   ],
   "note": ""
  },
  {
   "property": "C102",
   "status": "partial",
   "theorems": [
    "C102_tasks_get_combined_solution",
    "C102_interpolation_unchanged",
    "C102_scheme",
    "C102_not_hierarchized_refuted"
   ],
   "note": "Proved where the levels of the tasks differ only in hierarchized dimensions; C102_not_hierarchized_refuted gives a setup where a dimension is left out of the hierarchization and the combination changes the interpolated solution."
  },
  {
   "property": "C103",
   "status": "partial",
   "theorems": [
    "C103_values",
    "C103_raw_files",
    "C103_second_grid_refuted",
    "C103_other_variants_refuted"
   ],
   "note": "Proved for one solution and for several ones if tasks and sparse grid have all subspaces of the level (VSparseGrid). C103_second_grid_refuted: two equal solutions on a level with other subspaces give different files. C103_other_variants_refuted: with VSubspace and VOutgroup the file of a group lacks the subspaces of the other groups."
  },
  {
   "property": "C104",
   "status": "proved",
   "theorems": [
    "C104_between_recoveries",
    "C104_recovery_ends",
    "C104_restored",
    "C104_removed"
   ],
   "note": ""
  },
  {
   "property": "C105",
   "status": "partial",
   "theorems": [
    "C105_one_group_partial",
    "C105_several_groups_refuted",
    "C105_dead_waiting_refuted"
   ],
   "note": "Proved if one group has failed. C105_several_groups_refuted: four groups, one waiting process, two groups with one failed process each: both are given up. C105_dead_waiting_refuted: a waiting process fails, the manager waits forever for its rank (the code has a TODO at MPISystem.cpp:771)."
  },
  {
   "property": "C106",
   "status": "proved",
   "theorems": [
    "C106_start",
    "C106_combination",
    "C106_as_one_system",
    "C106_projection",
    "C106_consistent",
    "C106_as_sparse_grid_reduce"
   ],
   "note": "Hypothesis: every process has points of a subspace that two systems have; otherwise the output group throws because its extra sparse grid has no data (SparseGridWorker.hpp:455-475)."
  },
  {
   "property": "C107",
   "status": "proved",
   "theorems": [
    "C107_start",
    "C107_combination",
    "C107_as_one_system",
    "C107_common_values_kept",
    "C107_scheme",
    "C107_second_combination",
    "C107_mass",
    "C107_every_process_shares",
    "C107_as_sparse_grid_reduce"
   ],
   "note": "Hypothesis shareTasks: two systems have a task each such that all levels below both are levels of the sparse grid."
  },
  {
   "property": "C108",
   "status": "partial",
   "theorems": [
    "C108_report",
    "C108_max_partial",
    "C108_defined",
    "C108_manager_one_group",
    "C108_manager_no_file",
    "C108_max_refuted",
    "C108_manager_refuted",
    "C108_twice_refuted"
   ],
   "note": "Lines and minima proved in full (C108_report), and exactly when a report may be requested (C108_defined). Maxima only for subspaces with a value of at least 2^-1022 (C108_max_partial); false otherwise, since maxima start at numeric_limits::min() (C108_max_refuted). Through the manager the report is that of the workers with one group; with several groups only the last one is signalled and no file is written (C108_manager_no_file, C108_manager_refuted). A second report after a chunked combination reads deleted data (C108_twice_refuted)."
  },
  {
   "property": "C109",
   "status": "proved",
   "theorems": [
    "C109_corner_order",
    "C109_corners_complete",
    "C109_corners_distinct",
    "C109_values",
    "C109_boundary",
    "C109_local_boundary"
   ],
   "note": "Distinctness of the corners for sizes of at least two (otherwise first and last index agree)."
  },
  {
   "property": "C110",
   "status": "partial",
   "theorems": [
    "C110_final_file",
    "C110_partial_file",
    "C110_concatenation",
    "C110_each_event_once",
    "C110_file_numbers",
    "C110_release_same",
    "C110_duration_partial",
    "C110_duration_refuted",
    "C110_clock_refuted",
    "C110_nested_refuted"
   ],
   "note": "C110_duration_partial needs TIMING; without it the event is erased and the largest number is returned (C110_duration_refuted). With equal clock values an event is never reported (C110_clock_refuted); nested events of one name violate an assertion or lose one of them (C110_nested_refuted). Strings are assumed not to need escaping."
  },
  {
   "property": "C111",
   "status": "partial",
   "theorems": [
    "C111_round_trip",
    "C111_broadcast_partial",
    "C111_broadcast_refuted",
    "C111_no_deadlock",
    "C111_terminates",
    "C111_sum",
    "C111_mixed_builds_refuted"
   ],
   "note": "If one system was compiled with assertions and the other one without, the former waits forever for its coordinates to be sent back (C111_mixed_builds_refuted). C111_broadcast_partial needs fewer than 256 dimensions, since DimType has 8 bits (C111_broadcast_refuted), and fewer than 2^31 numbers. Different numbers of points fail the assertions of recvData."
  },
  {
   "property": "C112",
   "status": "partial",
   "theorems": [
    "C112_tree_partial",
    "C112_root_zero",
    "C112_successors",
    "C112_tree_refuted",
    "C112_no_result_refuted",
    "C112_progress",
    "C112_reduce",
    "C112_operation",
    "C112_agree_refuted",
    "C112_same_knowledge",
    "C112_root_knowledge",
    "C112_all_checks",
    "C112_nbc_round_trip"
   ],
   "note": "C112_tree_partial and C112_progress need (n-2)/6 + root < n, as for root 0 (C112_root_zero): predecessors are not wrapped around, so with the last process as root (Root_Rank -1) messages go to ranks that do not exist (C112_tree_refuted, C112_no_result_refuted). MPI_Comm_agree reads a vector that is empty on living processes, and a false flag gets lost in the reduction (C112_agree_refuted). Revoked communicators and the background operations are not modelled."
  },
  {
   "property": "C113",
   "status": "partial",
   "theorems": [
    "C113_number_of_flips",
    "C113_in_range",
    "C113_twice",
    "C113_any_bits",
    "C113_large_refuted"
   ],
   "note": "Holds for arrays of less than 2^26 ints; for larger ones the number of bits overflows (C113_large_refuted). The distribution of the random numbers is not modelled."
  },
  {
   "property": "C114",
   "status": "partial",
   "theorems": [
    "C114_all_complete_partial",
    "C114_allreduce_refuted",
    "C114_datatype_refuted"
   ],
   "note": "C114_all_complete_partial: for barriers and for broadcasts of char, int and double. Missing: MPI_Iallreduce, which does not store its count, so that a process that has not called it ends with an error (C114_allreduce_refuted), and other datatypes, for which a broadcast of ints is started (C114_datatype_refuted). The exchange of the list between the root and the process with the most calls is taken as a message; MPI_Waitall itself is not modelled."
  },
  {
   "property": "C115",
   "status": "proved",
   "theorems": [
    "C115_same_order",
    "C115_remove",
    "C115_norms",
    "C115_combined"
   ],
   "note": "Tasks are identified by their ids; the status of the groups and the messages of other commands are in C43, C44, C70, C88. Exact arithmetic."
  },
  {
   "property": "C116",
   "status": "partial",
   "theorems": [
    "C116_kth_evaluated",
    "C116_left_to_right_partial",
    "C116_names_refuted",
    "C116_interpolation_partial",
    "C116_interpolation_refuted",
    "C116_no_order_refuted"
   ],
   "note": "The arguments receive messages inside one function call. Only if they are evaluated from left to right do the names arrive at their parameters (C116_left_to_right_partial); in every other order different names are mixed up (C116_names_refuted). From left to right, in turn, the group waits for the coordinates while the manager still waits for the name to be received, if the send is not buffered (C116_interpolation_refuted, C116_interpolation_partial for buffered sends). There is no order that is right for all (C116_no_order_refuted)."
  },
  {
   "property": "C117",
   "status": "partial",
   "theorems": [
    "C117_all_workers_partial",
    "C117_levels_refuted",
    "C117_arguments"
   ],
   "note": "getID and getCombiDict are the exception: levelsToIDs_ and combiDictionary_ are not in the archive, so at the workers every level has the ID 0 and the dictionary is empty (C117_levels_refuted). C117_all_workers_partial has all other queries. Archives are sequences of tokens, shorter than 2^31 characters."
  },
  {
   "property": "C118",
   "status": "partial",
   "theorems": [
    "C118_uniform",
    "C118_constructed",
    "C118_copy_refuted"
   ],
   "note": "Proved for other objects that do not share pointers. CombiParameters is copied with its pointers and setHierarchicalBases deletes the old bases, so a copy made before (such as the one in ProcessManager) is left with deleted basis functions, cannot be sent, and cannot get new ones without deleting twice (C118_copy_refuted)."
  },
  {
   "property": "C119",
   "status": "partial",
   "theorems": [
    "C119_one_task",
    "C119_new_id",
    "C119_hop",
    "C119_weibull_partial",
    "C119_weibull_refuted"
   ],
   "note": "Everything but the times of random faults is proved in full. WeibullFaults does not write the time of the fault and the start, so a criterion that was initialized before it was sent fails at once at the receivers (C119_weibull_refuted); it is right if the receivers initialize it (C119_weibull_partial). Members of derived tasks, grids and the load model are not modelled."
  },
  {
   "property": "C120",
   "status": "partial",
   "theorems": [
    "C120_file_partial",
    "C120_basis_refuted",
    "C120_same_function",
    "C120_print",
    "C120_print_point"
   ],
   "note": "Everything but the basis function is proved in full. The constructor that reads a file ignores its basis argument and leaves the pointer uninitialized (C120_basis_refuted)."
  },
  {
   "property": "C121",
   "status": "partial",
   "theorems": [
    "C121_max",
    "C121_norm",
    "C121_normalize_partial",
    "C121_zero_refuted"
   ],
   "note": "Proved for all grids that are not zero. normalizelp divides by zero if all values are zero (C121_zero_refuted). Where the p-th root is not rational the model has no result."
  },
  {
   "property": "C122",
   "status": "partial",
   "theorems": [
    "C122_two_dimensions_partial",
    "C122_values_iff",
    "C122_values_refuted",
    "C122_three_dimensions",
    "C122_three_dimensions_refuted",
    "C122_one_dimension_refuted",
    "C122_spacing_iff",
    "C122_positions_partial"
   ],
   "note": "Proved: in two dimensions there is a tuple for every point, in the order of the grid; positions are right where the process has 2^L + 1 points per dimension (C122_positions_partial), and only there (C122_spacing_iff). Refuted: the extents are reversed but not the tuples, so values are at the right points exactly if swapping the dimensions does not change them (C122_values_iff, C122_values_refuted); in three dimensions only the first slice is written (C122_three_dimensions, C122_three_dimensions_refuted); in one dimension the loop reads past the sizes (C122_one_dimension_refuted). The VTK library is taken by its specification."
  },
  {
   "property": "C123",
   "status": "partial",
   "theorems": [
    "C123_success",
    "C123_returns",
    "C123_progress",
    "C123_error_code",
    "C123_learned",
    "C123_answered",
    "C123_collective_refuted",
    "C123_again_refuted",
    "C123_waitall_refuted"
   ],
   "note": "Proved in full for new requests of Isend and Irecv. The last sentence is refuted: the test of a collective operation with a dead process returns an error without the flag, so that waiting for it does not end (C123_collective_refuted); waiting for a request that is complete does not end, and testing a request again after an error before its completion follows the null pointer (C123_again_refuted); Waitall erases elements of the set it iterates over (C123_waitall_refuted). What background operations and the real MPI do is an arbitrary environment; statuses and the killing of the testing process are not modelled."
  },
  {
   "property": "C124",
   "status": "partial",
   "theorems": [
    "C124_exchange",
    "C124_exchange_ends",
    "C124_dead_receiver",
    "C124_dead_sender",
    "C124_probe_refuted"
   ],
   "note": "Sending and receiving is proved in full for two processes on a communicator that is not revoked. Probing is refuted: the request has the tag of the message but the sender looks for the tag with TAGOFFSETALIVE added, so neither Probe nor Send ever returns (C124_probe_refuted). MPI_ANY_SOURCE, revoked communicators and more than one message at a time are not modelled."
  },
  {
   "property": "C125",
   "status": "partial",
   "theorems": [
    "C125_success",
    "C125_returns",
    "C125_code",
    "C125_dead_refuted"
   ],
   "note": "All but the last sentence is proved in full. The call inserts MPI_ANY_SOURCE into the dead ones and not the process that said it is dead (C125_dead_refuted). From which process the real receive takes the values is not modelled."
  },
  {
   "property": "C126",
   "status": "partial",
   "theorems": [
    "C126_read_back",
    "C126_all_ranks",
    "C126_prefix_refuted"
   ],
   "note": "The first two sentences are proved in full, the first for prefixes that do not end in a digit; these have different files. Prefixes that end in a digit can share files, and without assertions a file of another size is accepted; a shorter one leaves old values (C126_prefix_refuted)."
  },
  {
   "property": "C127",
   "status": "partial",
   "theorems": [
    "C127_answers",
    "C127_nothing_else",
    "C127_quiet",
    "C127_remark_refuted"
   ],
   "note": "All but the last sentence, a remark in the code, is proved in full. A process can get answers of others this way, which it drops (C127_remark_refuted)."
  }
 ]
}