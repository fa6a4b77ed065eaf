{
 "claims": [
  {
   "property": "C01",
   "status": "proved",
   "theorems": [
    "hilbert2_cell_roundtrip"
   ],
   "note": "for every size_t width W with 2k <= W"
  },
  {
   "property": "C02",
   "status": "proved",
   "theorems": [
    "hilbert2_index_roundtrip",
    "hilbert2_index_range",
    "hilbert2_overflow_refuted"
   ],
   "note": "for every size_t width W with 2k <= W; the bound is shown to be necessary for W=64"
  },
  {
   "property": "C03",
   "status": "proved",
   "theorems": [
    "hilbert2_adjacent"
   ],
   "note": "2k <= W"
  },
  {
   "property": "C04",
   "status": "proved",
   "theorems": [
    "hilbert3_cell_roundtrip",
    "hilbert3_index_roundtrip"
   ],
   "note": "3k <= W"
  },
  {
   "property": "C05",
   "status": "proved",
   "theorems": [
    "hilbert3_adjacent"
   ],
   "note": "3k <= W"
  },
  {
   "property": "C06",
   "status": "proved",
   "theorems": [
    "hilbert2_nested",
    "hilbert3_nested"
   ],
   "note": "2(k+1) <= W, 3(k+1) <= W"
  },
  {
   "property": "C07",
   "status": "proved",
   "theorems": [
    "sizesToOffsets_prefix_sum",
    "sizesToOffsets_threads"
   ],
   "note": "Values are W-bit words (any W); both overloads."
  },
  {
   "property": "C08",
   "status": "proved",
   "theorems": [
    "removeDuplicates_runs",
    "sortAndRemoveDuplicates_set",
    "mergeThreadedUniqueData_set"
   ],
   "note": "std::sort by contract (any function returning a sorted permutation)."
  },
  {
   "property": "C09",
   "status": "proved",
   "theorems": [
    "inplaceMerge_sorts",
    "inplaceMerge_sorts_all",
    "sortWithInplaceMerge_sorts",
    "inplaceMergeThreads_sorts",
    "sortWithUniqueMerge_set",
    "mergeAppendedData_sorts",
    "inplaceMerge_empty_distribution_refuted"
   ],
   "note": "Any execution order of the OpenMP iterations; std::inplace_merge is undefined on unsorted ranges in the model, so the proofs also show that its precondition always holds. An empty distribution is undefined behaviour."
  },
  {
   "property": "C10",
   "status": "proved",
   "theorems": [
    "threadDistribution_shifted",
    "threadDistribution_vector_shifted"
   ],
   "note": "Both overloads, any order of the parallel loop."
  },
  {
   "property": "C100",
   "status": "proved",
   "theorems": [
    "projector_updates_exact",
    "stale_pattern_refuted"
   ],
   "note": "Composes C96-C99 and the kernel offsets, thread distribution and e. stale_pattern_refuted: the pattern is rebuilt only if the number of multipliers or kernels changes, so multipliers that glue other domains than before are projected with the old pattern. Once there is no kernel, later systems must have none (see type_none_stays_refuted of C94). The direct solver is a contract."
  },
  {
   "property": "C101",
   "status": "proved",
   "theorems": [
    "numbering_exact",
    "harmonic_dofs_refuted",
    "plain_dofs_agree"
   ],
   "note": "FEM and BEM numbering; harmonic_dofs_refuted: with a multiplicity other than one the matrix is numbered with dimension*multiplicity^2 DOFs per node, the vectors with dimension*multiplicity"
  },
  {
   "property": "C102",
   "status": "proved",
   "theorems": [
    "pattern_exact"
   ],
   "note": "full and upper shape; without the (unused) regions of the boundary and the dense BEM matrix"
  },
  {
   "property": "C103",
   "status": "proved",
   "theorems": [
    "assembly_exact"
   ],
   "note": "MatrixFillerKernel for full and upper shape; LOWER is not used by the pattern"
  },
  {
   "property": "C104",
   "status": "proved",
   "theorems": [
    "synchronize_exact"
   ],
   "note": "multiple_rhs_refuted: with several right-hand sides only the first one is synchronized"
  },
  {
   "property": "C105",
   "status": "proved",
   "theorems": [
    "gather_scatter_exact"
   ],
   "note": ""
  },
  {
   "property": "C106",
   "status": "proved",
   "theorems": [
    "tear_exact",
    "untear_exact",
    "tear_roundtrip"
   ],
   "note": ""
  },
  {
   "property": "C107",
   "status": "proved",
   "theorems": [
    "sum_exact",
    "average_exact",
    "sum_of_equal_copies"
   ],
   "note": "sum_of_equal_copies for integers"
  },
  {
   "property": "C108",
   "status": "proved",
   "theorems": [
    "norm_counts_once"
   ],
   "note": "the reduction over processes and the square root are not modelled"
  },
  {
   "property": "C109",
   "status": "proved",
   "theorems": [
    "apply_exact",
    "apply_init_ok"
   ],
   "note": "the product of a domain is any function that keeps the length (contract of SpBLAS)"
  },
  {
   "property": "C11",
   "status": "proved",
   "theorems": [
    "round_up_least_multiple",
    "round_up_zero_power_of_two",
    "round_down_greatest_multiple",
    "divide_round_up_ceiling",
    "round_up_zero_refuted",
    "divide_round_up_zero_refuted"
   ],
   "note": "Positive arguments as the property states; zero is refuted separately."
  },
  {
   "property": "C110",
   "status": "proved",
   "theorems": [
    "distributed_pattern_exact",
    "distributed_rows_agree",
    "repeated_node_refuted"
   ],
   "note": "All ranks modelled together; exchangeUnknownSize by C29. An element with a shared node twice gives an out-of-range read."
  },
  {
   "property": "C111",
   "status": "proved",
   "theorems": [
    "distributed_permutation_exact"
   ],
   "note": "Elements only; the loop over boundary regions repeats it."
  },
  {
   "property": "C112",
   "status": "proved",
   "theorems": [
    "matrix_synchronize_exact"
   ],
   "note": "Sync::init on the patterns of C110, gatherFromUpper for any history"
  },
  {
   "property": "C113",
   "status": "proved",
   "theorems": [
    "distributed_assembly_exact",
    "distributed_assembly_sum"
   ],
   "note": "pattern, assembly and synchronization composed; the sum form needs an associative addition with zero"
  },
  {
   "property": "C114",
   "status": "proved",
   "theorems": [
    "matrix_apply_exact"
   ],
   "note": "SpBLAS by contract (any function of the row); the limit on message sizes is left out."
  },
  {
   "property": "C115",
   "status": "proved",
   "theorems": [
    "assembled_apply_exact"
   ],
   "note": "Composes C113 and C114."
  },
  {
   "property": "C116",
   "status": "proved",
   "theorems": [
    "sort_nodes_exact"
   ],
   "note": "one process; all processes in C120"
  },
  {
   "property": "C117",
   "status": "proved",
   "theorems": [
    "synchronize_regions_exact"
   ],
   "note": "all ranks"
  },
  {
   "property": "C118",
   "status": "proved",
   "theorems": [
    "node_info_exact"
   ],
   "note": "all ranks"
  },
  {
   "property": "C119",
   "status": "proved",
   "theorems": [
    "boundary_regions_exact",
    "element_regions_exact",
    "region_position_exact"
   ],
   "note": "given nodes are increasing, as sortNodes leaves them"
  },
  {
   "property": "C12",
   "status": "proved",
   "theorems": [
    "pack_unpack_round_trip",
    "packedSize_exact"
   ],
   "note": "any sequence of raw objects, strings and (nested) vectors"
  },
  {
   "property": "C120",
   "status": "proved",
   "theorems": [
    "numbered_mesh_exact"
   ],
   "note": "composition of C116 and C119; gives the hypotheses of C104-C115"
  },
  {
   "property": "C121",
   "status": "proved",
   "theorems": [
    "region_boxes_exact",
    "first_region_box",
    "first_interface_box_refuted"
   ],
   "note": "the first of several contact interfaces gets the box of all of them"
  },
  {
   "property": "C122",
   "status": "proved",
   "theorems": [
    "nodes_duplication_exact",
    "duplication_shares_nodes"
   ],
   "note": "Closed under the global context."
  },
  {
   "property": "C123",
   "status": "proved",
   "theorems": [
    "links_exact",
    "links_independent_of_threads",
    "record_of_every_node_refuted"
   ],
   "note": "The branch sortedIDs = false is not modelled, no caller uses it."
  },
  {
   "property": "C124",
   "status": "proved",
   "theorems": [
    "edge_neighbors_exact",
    "face_neighbors_exact",
    "face_neighbors_refused",
    "degenerate_element_refuted"
   ],
   "note": "Faces and edges of element types are given."
  },
  {
   "property": "C125",
   "status": "proved",
   "theorems": [
    "lumped_apply_computes",
    "lumped_symmetric",
    "lumped_semidefinite"
   ],
   "note": "SpBLAS of K by contract"
  },
  {
   "property": "C126",
   "status": "proved",
   "theorems": [
    "dirichlet_update_schur",
    "dirichlet_apply_schur",
    "dirichlet_apply_computes",
    "dirichlet_symmetric",
    "dirichlet_semidefinite",
    "dirichlet_below_lumped"
   ],
   "note": "sparse solver, BLAS and std::sort by contract; dirichlet_apply_schur also covers complements of a solver (getSC)"
  },
  {
   "property": "C127",
   "status": "proved",
   "theorems": [
    "implicit_dirichlet_updates",
    "implicit_dirichlet_computes",
    "dirichlet_determined",
    "implicit_dirichlet_full_refuted"
   ],
   "note": "finding: a symmetric K in full storage is folded twice"
  },
  {
   "property": "C128",
   "status": "proved",
   "theorems": [
    "pcpg_ranks_compute",
    "implicit_operator_runs",
    "empty_runs",
    "lumped_runs",
    "dirichlet_runs",
    "implicit_dirichlet_runs"
   ],
   "note": "exact arithmetic; refinement of the model of C57 and C90 by the ranks"
  },
  {
   "property": "C129",
   "status": "proved",
   "theorems": [
    "total_feti_problem",
    "dual_energy",
    "total_feti_states",
    "total_feti_solves"
   ],
   "note": "exact arithmetic; independence of the rows of B is a hypothesis"
  },
  {
   "property": "C13",
   "status": "proved",
   "theorems": [
    "tarray_pack_round_trip",
    "tarray_pack_aligned_refuted"
   ],
   "note": "arrays without alignment; for aligned arrays the property is false (refuted theorem)"
  },
  {
   "property": "C130",
   "status": "proved",
   "theorems": [
    "total_feti_assembled",
    "total_feti_balanced"
   ],
   "note": "exact arithmetic; independence of the rows of B follows from their orthonormality"
  },
  {
   "property": "C131",
   "status": "proved",
   "theorems": [
    "coarse_problem_regular",
    "system_input",
    "total_feti_well_posed"
   ],
   "note": "Composition of C100 and C130: the full rank of G follows from the uniqueness of the solution of the assembled problem; solvers of the domains and of the coarse problem by contract, sizes in the range of int, exact arithmetic"
  },
  {
   "property": "C132",
   "status": "proved",
   "theorems": [
    "element_distribution_exact",
    "region_distribution_exact",
    "boundary_distribution_exact",
    "boundary_next_refuted"
   ],
   "note": "All ranks at once, MPI_Exscan as modelled for C19 with the undefined buffer of rank 0 quantified. process.next of boundary regions is the local size (finding, boundary_next_refuted)."
  },
  {
   "property": "C133",
   "status": "proved",
   "theorems": [
    "mesio_counters_exact",
    "mesio_elements_exact",
    "mesio_domains_exact"
   ],
   "note": "Composition with C132; the first region being all elements is a hypothesis (Mesh::preprocess puts ALL_ELEMENTS first)."
  },
  {
   "property": "C134",
   "status": "proved",
   "theorems": [
    "matrix_synchronize_exact",
    "matrix_synchronize_sums",
    "implicit_apply_matrix_computes",
    "matrix_buffers_refuted"
   ],
   "note": "the buffers of Matrix_Dual are enlarged only by the size for the first neighbour (refuted with a witness); the variant of apply with lists of domains per row is not modelled"
  },
  {
   "property": "C135",
   "status": "proved",
   "theorems": [
    "smalbe_feasible",
    "smalbe_criterion",
    "smalbe_solves",
    "smalbe_runs",
    "smalbe_status",
    "smalbe_ascent",
    "smalbe_converged_refuted"
   ],
   "note": "Exact arithmetic on whole vectors. The operators of the projector are functions with a stated contract (coarse_space: orthogonal projector, G G^T = L U with U the transpose of L); the largest eigenvalue is a parameter. Termination of the outer loop is not claimed: the number of passes is a parameter. The flag of convergence is never reported: smalbe_converged_refuted, example smalbe_met."
  },
  {
   "property": "C136",
   "status": "proved",
   "theorems": [
    "estimate_bounds",
    "estimate_grows",
    "estimate_stops",
    "estimate_runs",
    "projected_bounds",
    "projected_runs",
    "projected_runs_refuted",
    "estimate_largest_refuted"
   ],
   "note": "Exact arithmetic on whole vectors; eigenvalues are bounds of the Rayleigh quotients. That the estimate is the largest eigenvalue is refuted by estimate_largest_refuted."
  },
  {
   "property": "C137",
   "status": "proved",
   "theorems": [
    "displacements_prescribed",
    "temperatures_prescribed",
    "nothing_prescribed",
    "harmonic_displacements_refuted"
   ],
   "note": "Regions carry their configuration instead of being found by name; nodes are processed one by one instead of in SIMD chunks."
  },
  {
   "property": "C138",
   "status": "proved",
   "theorems": [
    "loads_added",
    "nodal_loads_refuted"
   ],
   "note": "Addition is any commutative and associative operation with a zero, so the order of threads does not matter; the claim is false for forces in nodes of regions with elements (nodal_loads_refuted)."
  },
  {
   "property": "C139",
   "status": "proved",
   "theorems": [
    "dirichlet_solutions",
    "dirichlet_symmetric"
   ],
   "note": "One process (empty halo, nothing is sent). Values of any ring instead of floating point numbers. std::binary_search by its contract for sorted indices."
  },
  {
   "property": "C14",
   "status": "proved",
   "theorems": [
    "serializededata_pack_round_trip",
    "serializededata_pointer_round_trip",
    "serializededata_move_uniform_refuted"
   ],
   "note": "containers built by the constructors; both layouts and null pointers"
  },
  {
   "property": "C140",
   "status": "proved",
   "theorems": [
    "upper_copied",
    "upper_represents"
   ],
   "note": "For symmetric types of the matrix (others are shared without a copy) and the first call, when the number of nonzeros of the new matrix is zero."
  },
  {
   "property": "C15",
   "status": "proved",
   "theorems": [
    "distribute_balanced",
    "distribute_minchunk",
    "distribute_signed_overflow_refuted"
   ],
   "note": "sizes below 2^53, the double-precision quotient is modelled bit-exactly"
  },
  {
   "property": "C16",
   "status": "proved",
   "theorems": [
    "balance_fixed_keeps_records",
    "balance_various_keeps_records",
    "balance_various_empty_target_refuted",
    "balance_default_distribution_refuted"
   ],
   "note": "variable-size records: inner threads with an empty target are excluded (refuted theorem)"
  },
  {
   "property": "C17",
   "status": "proved",
   "theorems": [
    "iteration_variable",
    "iteration_uniform",
    "iteration_empty_first_thread_refuted"
   ],
   "note": "thread 0 holds the first boundary"
  },
  {
   "property": "C18",
   "status": "proved",
   "theorems": [
    "permute_variable",
    "permute_variable_boundary_distribution",
    "permute_uniform"
   ],
   "note": "both layouts, both conventions of the distribution"
  },
  {
   "property": "C19",
   "status": "proved",
   "theorems": [
    "arena_blocks_since_reset",
    "arena_blocks_outstanding",
    "arena_huge_request_refuted"
   ],
   "note": "Requests of 2^63 bytes or more are excluded; arena_huge_request_refuted shows why."
  },
  {
   "property": "C20",
   "status": "proved",
   "theorems": [
    "arena_free_size",
    "arena_free_size_full_refuted"
   ],
   "note": "The original expectation (free size never exceeds the capacity) is false; see arena_free_size_full_refuted."
  },
  {
   "property": "C21",
   "status": "proved",
   "theorems": [
    "cbmb_granted_disjoint",
    "cbmb_deallocate_exact",
    "cbmb_align3_refuted",
    "cbmb_position_wrap_refuted"
   ],
   "note": "Refuted variants show that the restrictions on alignment and position are needed."
  },
  {
   "property": "C22",
   "status": "proved",
   "theorems": [
    "cbmb_oldest_grantable",
    "cbmb_fifo",
    "cbmb_no_overtaking",
    "cbmb_grantable_stable",
    "cbmb_no_lost_wakeup",
    "cbmb_drains",
    "cbmb_pool6_refuted"
   ],
   "note": "Pools that do not divide 2^64 can block forever (cbmb_pool6_refuted)."
  },
  {
   "property": "C23",
   "status": "proved",
   "theorems": [
    "kdtree_partition",
    "kdtree_leaf_sorted",
    "kdtree_equal_points_together",
    "kdtree_buckets",
    "intervaltree_partition"
   ],
   "note": "both trees; also sorted leaves, equal points together, recorded buckets"
  },
  {
   "property": "C24",
   "status": "proved",
   "theorems": [
    "intervaltree_search"
   ],
   "note": "plus: no leaf twice, leaves only"
  },
  {
   "property": "C25",
   "status": "proved",
   "theorems": [
    "all_reduce_total",
    "all_reduce_equal_refuted"
   ],
   "note": "For associative and commutative operations, any sub-range of ranks. all_reduce_equal_refuted: floating-point sums differ between ranks (not associative)."
  },
  {
   "property": "C26",
   "status": "proved",
   "theorems": [
    "all_gather_concat",
    "all_gather_limit_refuted"
   ],
   "note": "If every contribution respects the size limit; otherwise the ranks that exceed it return and the others wait (refuted)."
  },
  {
   "property": "C27",
   "status": "proved",
   "theorems": [
    "all_to_all_delivers"
   ],
   "note": "Messages have to be ordered by target, as all callers do."
  },
  {
   "property": "C28",
   "status": "proved",
   "theorems": [
    "exscan_sums",
    "exscan_vec_sums",
    "get_distribution_sums",
    "exscan_rank0_overflow_refuted"
   ],
   "note": "MPI collectives by contract; the sums have to fit the integer type. Refuted: rank 0 adds its value to a variable that MPI_Exscan does not set, signed overflow is possible although all sums fit."
  },
  {
   "property": "C29",
   "status": "proved",
   "theorems": [
    "exchange_unknown_delivers",
    "exchange_unknown_same_delivers",
    "exchange_known_delivers",
    "exchange_known_same_delivers"
   ],
   "note": "Every symmetric neighbourhood, every arrival order and buffering (definition of ncompletes)."
  },
  {
   "property": "C30",
   "status": "proved",
   "theorems": [
    "send_various_delivers",
    "send_various_twice_refuted"
   ],
   "note": "Targets of a rank are distinct; with a repeated target a message is lost (refuted)."
  },
  {
   "property": "C31",
   "status": "proved",
   "theorems": [
    "receive_lower_shifts",
    "receive_upper_shifts"
   ],
   "note": "Every schedule, synchronous or buffered sends (definition of completes)."
  },
  {
   "property": "C32",
   "status": "proved",
   "theorems": [
    "patterns_complete"
   ],
   "note": "Every program built of the send/receive patterns of the recursive halving."
  },
  {
   "property": "C33",
   "status": "proved",
   "theorems": [
    "balance_parts"
   ],
   "note": ""
  },
  {
   "property": "C34",
   "status": "proved",
   "theorems": [
    "gather_unknown_concat",
    "scatterv_parts",
    "scatter_parts"
   ],
   "note": "By the MPI contracts of Gather, Gatherv, Scatter, Scatterv expressed as programs of sends and receives."
  },
  {
   "property": "C35",
   "status": "proved",
   "theorems": [
    "split_gives_fields",
    "split_pieces_free",
    "join_of_split",
    "split_of_join",
    "split_of_join_refuted"
   ],
   "note": "a trailing empty piece is lost (refuted)"
  },
  {
   "property": "C36",
   "status": "proved",
   "theorems": [
    "strip_is_trim_and_cut",
    "removecomments_cuts",
    "uppercase_pointwise",
    "strip_no_comment",
    "strip_stable",
    "strip_idempotent_refuted"
   ],
   "note": "blanks before # stay (refuted idempotence)"
  },
  {
   "property": "C37",
   "status": "proved",
   "theorems": [
    "case_insensitive_eq_spec",
    "case_insensitive_eq_equivalence",
    "case_insensitive_order",
    "case_insensitive_first_difference",
    "case_insensitive_preffix_spec",
    "case_insensitive_suffix_spec",
    "contains_spec",
    "case_sensitive_eq_spec",
    "case_sensitive_suffix_spec",
    "case_sensitive_preffix_long",
    "case_sensitive_preffix_refuted"
   ],
   "note": "tolower is any function"
  },
  {
   "property": "C38",
   "status": "proved",
   "theorems": [
    "tokenizer_terminates",
    "token_consumes",
    "harmless_file_tokenizes",
    "reads_outside_refuted",
    "line_number_refuted"
   ],
   "note": "reading outside of the file is refuted for files that end by a blank or an unterminated comment"
  },
  {
   "property": "C39",
   "status": "proved",
   "theorems": [
    "layout_tokens",
    "layout_line_ends",
    "layout_does_not_matter",
    "comment_joins_words_refuted"
   ],
   "note": "a multi-line comment directly after a word joins it with the next one (refuted)"
  },
  {
   "property": "C40",
   "status": "proved",
   "theorems": [
    "enum_option_set",
    "enum_option_roundtrip",
    "enum_flags_set",
    "enum_flags_get",
    "enum_flags_roundtrip",
    "enum_no_flag_refuted",
    "enum_index_refuted"
   ],
   "note": "indices outside of the options are accepted and the empty set of flags is not read back (refuted)"
  },
  {
   "property": "C41",
   "status": "proved",
   "theorems": [
    "stored_parameters_are_read",
    "stored_configuration_is_read",
    "words_are_reread",
    "text_value_refuted",
    "empty_configuration_refuted",
    "missing_semicolon_refuted",
    "missing_semicolon_in_object_refuted",
    "accepted_objects_are_closed",
    "missing_semicolon_is_detected"
   ],
   "note": "printing without patterns; included files and listeners are not modelled"
  },
  {
   "property": "C42",
   "status": "proved",
   "theorems": [
    "convert_keeps_matrix",
    "convert_checks_sizes"
   ],
   "note": "for every valid source matrix (indices in any order, duplicates allowed), both storage orders and any destination contents"
  },
  {
   "property": "C43",
   "status": "proved",
   "theorems": [
    "convert_involution"
   ],
   "note": "for every valid matrix with ascending (not necessarily distinct) indices"
  },
  {
   "property": "C44",
   "status": "proved",
   "theorems": [
    "permute_moves_entries"
   ],
   "note": "row, column, both or no permutation, both storage orders; std::sort by contract. Indices are ascending whenever the secondary dimension is permuted or the source is ascending (a pure primary permutation copies the lines)"
  },
  {
   "property": "C45",
   "status": "proved",
   "theorems": [
    "submatrix_is_window",
    "submatrix_checks_window",
    "concat_joins_blocks",
    "quadrisect_concat_restores"
   ],
   "note": "source with ascending indices (the window search relies on it); all combinations of storage orders; restoration of the arrays for matrices without duplicate positions"
  },
  {
   "property": "C46",
   "status": "proved",
   "theorems": [
    "transpose_map_transports",
    "transpose_map_checks"
   ],
   "note": "any initial contents of map and destination"
  },
  {
   "property": "C47",
   "status": "proved",
   "theorems": [
    "complete_counts_entries",
    "complete_gives_symmetric",
    "complete_gives_hermitian",
    "complete_trailing_line_refuted",
    "complete_conj_orders_refuted"
   ],
   "note": "false without the stated restrictions: two refutations"
  },
  {
   "property": "C48",
   "status": "proved",
   "theorems": [
    "sorting_permutation_sorts",
    "sorting_permutation_checks"
   ],
   "note": "for every vector and every std::sort"
  },
  {
   "property": "C49",
   "status": "proved",
   "theorems": [
    "pruning_lists_used",
    "pruning_checks"
   ],
   "note": "for every valid matrix and pruning mode"
  },
  {
   "property": "C50",
   "status": "proved",
   "theorems": [
    "pivots_trails_spec",
    "completed_monotone",
    "pivots_trails_checks"
   ],
   "note": "completed vectors are claimed for a non-zero number of positions (with none, the backward completion stores -1)"
  },
  {
   "property": "C51",
   "status": "proved",
   "theorems": [
    "permute_csr_moves",
    "permute_csr_without_diagonal_refuted",
    "permute_dense_gathers",
    "kernel_order_sparse",
    "kernel_order_dense_refuted"
   ],
   "note": "std::sort by contract; two _refuted theorems record findings"
  },
  {
   "property": "C52",
   "status": "proved",
   "theorems": [
    "submatrix_dense_is_window",
    "submatrix_sparse_is_window",
    "submatrix_dense_lower_refuted",
    "submatrix_dense_other_side_refuted"
   ],
   "note": "two _refuted theorems record findings"
  },
  {
   "property": "C53",
   "status": "proved",
   "theorems": [
    "null_pivots_are_columns",
    "null_pivots_determine",
    "reg_matrix_diagonal",
    "rho_is_greatest_diagonal",
    "regularization_makes_nonsingular"
   ],
   "note": "last theorem over Coq's reals (exact arithmetic)"
  },
  {
   "property": "C54",
   "status": "proved",
   "theorems": [
    "all_permutations_once",
    "all_permutations_integer_refuted"
   ],
   "note": "integer parameters are undefined at the largest int (refuted)"
  },
  {
   "property": "C55",
   "status": "proved",
   "theorems": [
    "pso_best_is_minimum",
    "de_best_is_minimum",
    "soma_best_is_minimum",
    "pso_search_defined",
    "de_search_defined",
    "soma_search_defined",
    "soma_best_refuted"
   ],
   "note": "arbitrary arithmetic with a strict weak order (no NaN); within the journeys of an individual SOMA's best is not yet the minimum (refuted)"
  },
  {
   "property": "C56",
   "status": "proved",
   "theorems": [
    "mprgp_feasible",
    "mprgp_runs"
   ],
   "note": "exact (real) arithmetic; the operator and the preconditioner are arbitrary functions with the stated properties"
  },
  {
   "property": "C57",
   "status": "proved",
   "theorems": [
    "pcpg_invariant",
    "orthopcpg_invariant",
    "pcpg_solution"
   ],
   "note": "exact arithmetic; orthogonalized variant with the conjugate projector keeps G F x = e (defect); the preconditioner has to be definite on the kernel of G only"
  },
  {
   "property": "C58",
   "status": "proved",
   "theorems": [
    "status_start",
    "status_verdict",
    "status_truthful",
    "status_defined",
    "status_met",
    "status_zero_period_refuted",
    "status_arioli_refuted",
    "pcpg_status",
    "pcpg_success",
    "pcpg_limit",
    "orthopcpg_status",
    "mprgp_limit",
    "mprgp_status",
    "mprgp_status_at_limit_refuted"
   ],
   "note": "status for every arithmetic; pcpg_success in exact arithmetic"
  },
  {
   "property": "C59",
   "status": "proved",
   "theorems": [
    "dual_map_sizes",
    "synchronize_exact",
    "synchronize_sums",
    "synchronize_pairs",
    "synchronize_unshared",
    "synchronize_too_long_refuted",
    "synchronize_floating_point_refuted"
   ],
   "note": "Equality of all copies needs an associative addition; for doubles it is refuted with three sharing ranks. Messages over 2^30 bytes are refuted (result of the exchange ignored)."
  },
  {
   "property": "C60",
   "status": "proved",
   "theorems": [
    "local_intervals_partition",
    "dot_counts_once",
    "copy_without_halo_owned",
    "synchronize_without_halo"
   ],
   "note": "dot for exact arithmetic (associative and commutative addition); the global reduction may use any order and bracketing."
  },
  {
   "property": "C61",
   "status": "proved",
   "theorems": [
    "permute_gathers"
   ],
   "note": "Any element size."
  },
  {
   "property": "C62",
   "status": "proved",
   "theorems": [
    "my_int_pow_correct"
   ],
   "note": "Unbounded integers: overflow of int is not modelled."
  },
  {
   "property": "C63",
   "status": "proved",
   "theorems": [
    "tarray_from_vector_content",
    "tarray_from_parts_content",
    "tarray_fill_content",
    "tarray_duplicate_content",
    "tarray_copy_content"
   ],
   "note": ""
  },
  {
   "property": "C64",
   "status": "proved",
   "theorems": [
    "arena2_blocks_since_clear",
    "arena2_remaining_exact",
    "arena2_remaining_refuted"
   ],
   "note": ""
  },
  {
   "property": "C65",
   "status": "proved",
   "theorems": [
    "cbmb_transaction_never_blocks",
    "cbmb_transaction_selfdeadlock_refuted"
   ],
   "note": "If the resource becomes idle inside a transaction begun earlier, the transaction can wait for itself (refuted witness)."
  },
  {
   "property": "C66",
   "status": "proved",
   "theorems": [
    "kdtree_box_min"
   ],
   "note": ""
  },
  {
   "property": "C67",
   "status": "proved",
   "theorems": [
    "kdtree_mid_point",
    "kdtree_mid_point_empty_refuted"
   ],
   "note": "without the assumption of a non-empty bucket the claim is false"
  },
  {
   "property": "C68",
   "status": "proved",
   "theorems": [
    "all_gather_inplace_concat",
    "all_gather_inplace_at"
   ],
   "note": ""
  },
  {
   "property": "C69",
   "status": "proved",
   "theorems": [
    "unique_all_gather_union"
   ],
   "note": ""
  },
  {
   "property": "C70",
   "status": "proved",
   "theorems": [
    "all_to_all_v_delivers"
   ],
   "note": "MPI_Alltoallv by contract."
  },
  {
   "property": "C71",
   "status": "proved",
   "theorems": [
    "receive_lower_unknown_delivers",
    "receive_upper_unknown_delivers",
    "receive_lower_known_delivers",
    "receive_upper_known_delivers"
   ],
   "note": "Except for receiveLowerUnknownSize the rank must not be its own neighbour."
  },
  {
   "property": "C72",
   "status": "proved",
   "theorems": [
    "exchange_in_place_delivers",
    "gather_uniform_delivers"
   ],
   "note": ""
  },
  {
   "property": "C73",
   "status": "proved",
   "theorems": [
    "convert_map_transports"
   ],
   "note": ""
  },
  {
   "property": "C74",
   "status": "proved",
   "theorems": [
    "submatrix_map_transports"
   ],
   "note": ""
  },
  {
   "property": "C75",
   "status": "proved",
   "theorems": [
    "permute_map_transports"
   ],
   "note": "square matrix required if a triangle is stored (the code does not check it)"
  },
  {
   "property": "C76",
   "status": "proved",
   "theorems": [
    "prune_keeps_entries"
   ],
   "note": "sparse destination"
  },
  {
   "property": "C77",
   "status": "proved",
   "theorems": [
    "fill_updates",
    "copy_updates",
    "copy_checks",
    "transpose_updates",
    "transpose_inplace_updates",
    "reorder_updates",
    "complete_updates"
   ],
   "note": "math::blas::transpose enters by its contract (S_Dnx.transposes); btrans_ref_ok shows that the contract can be met"
  },
  {
   "property": "C78",
   "status": "proved",
   "theorems": [
    "permute_full_updates",
    "permute_updates",
    "permute_inplace_updates",
    "permute_checks"
   ],
   "note": "transposition and allocation by contract"
  },
  {
   "property": "C79",
   "status": "proved",
   "theorems": [
    "transposed_view_at",
    "submatrix_view_at",
    "submatrix_view_checks",
    "convert_keeps_matrix_dense",
    "convert_general_dense",
    "convert_dense_checks",
    "convert_hermitian_writes_indices",
    "convert_dense_refuted"
   ],
   "note": "the failing Hermitian case is excluded from the main theorem and characterised by convert_hermitian_writes_indices"
  },
  {
   "property": "C80",
   "status": "proved",
   "theorems": [
    "convert_csx_dny_writes",
    "convert_csx_dny_value",
    "convert_csx_dny_checks",
    "submatrix_csx_dny_window",
    "submatrix_csx_dny_checks",
    "prune_dense_writes",
    "prune_dense_nothing",
    "prune_dense_none_refuted"
   ],
   "note": "the case without pruning is characterised by prune_dense_nothing"
  },
  {
   "property": "C81",
   "status": "proved",
   "theorems": [
    "submatrix_noncontig_gathers",
    "submatrix_noncontig_checks",
    "supermatrix_noncontig_spreads",
    "supermatrix_noncontig_checks",
    "supermatrix_noncontig_injective"
   ],
   "note": "sequential execution; the atomic mode adds the same contributions"
  },
  {
   "property": "C82",
   "status": "proved",
   "theorems": [
    "lincomb_dnx_combines",
    "lincomb_dnx_checks",
    "lincomb_dnx_csy_combines",
    "lincomb_dnx_csy_checks",
    "gemv_csx_multiplies",
    "gemv_csx_checks"
   ],
   "note": "exact arithmetic (commutative ring)"
  },
  {
   "property": "C83",
   "status": "proved",
   "theorems": [
    "orthonormalize_spec"
   ],
   "note": "over Coq's reals (exact arithmetic)"
  },
  {
   "property": "C84",
   "status": "proved",
   "theorems": [
    "stringwithcommas_groups",
    "get_line_spec",
    "stringwithcommas_refuted"
   ],
   "note": "numbers of 10^12 and more miss a comma (refuted)"
  },
  {
   "property": "C85",
   "status": "proved",
   "theorems": [
    "bool_roundtrip",
    "vector_roundtrip",
    "vector_empty_refuted",
    "bool_without_value"
   ],
   "note": "the empty vector is not read back (refuted)"
  },
  {
   "property": "C86",
   "status": "proved",
   "theorems": [
    "pso_proposals_in_range",
    "de_proposals_in_range",
    "soma_proposals_in_range",
    "proposal_is_set",
    "generated_in_range",
    "generated_integer_refuted"
   ],
   "note": "generated integers may be outside of int (refuted)"
  },
  {
   "property": "C87",
   "status": "proved",
   "theorems": [
    "forbidden_is_recognised",
    "forbidden_not_recorded_refuted"
   ],
   "note": "failed configurations are never recorded (refuted)"
  },
  {
   "property": "C88",
   "status": "proved",
   "theorems": [
    "leader_is_first_or_dangling"
   ],
   "note": "the rest of SOMAT3A is not modelled"
  },
  {
   "property": "C89",
   "status": "proved",
   "theorems": [
    "mprgp_optimal",
    "mprgp_descends"
   ],
   "note": "exact (real) arithmetic"
  },
  {
   "property": "C90",
   "status": "proved",
   "theorems": [
    "pcpg_descends",
    "pcpg_minimal",
    "pcpg_conjugate",
    "pcpg_terminates",
    "pcpg_progress",
    "pcpg_exact_refuted",
    "orthopcpg_terminates",
    "orthopcpg_conjugate"
   ],
   "note": "exact arithmetic; the preconditioner has to be definite on the kernel of G only"
  },
  {
   "property": "C91",
   "status": "proved",
   "theorems": [
    "constraints_order",
    "constraints_set",
    "constraints_consistent",
    "constraints_update",
    "constraints_enforce",
    "constraints_hold_iff"
   ],
   "note": "Local DOFs of a rank are in a common order and all ranks agree on the fixed DOFs (hypothesis of the specification)."
  },
  {
   "property": "C92",
   "status": "proved",
   "theorems": [
    "applyB_computes",
    "applyB_filter_computes",
    "applyBt_computes",
    "applyB_adjoint",
    "constraints_orthonormal",
    "applyB_synchronized",
    "B_Bt_identity"
   ],
   "note": "Over the real numbers."
  },
  {
   "property": "C93",
   "status": "proved",
   "theorems": [
    "implicit_apply_computes",
    "implicit_apply_filter_computes",
    "explicit_assembled",
    "explicit_apply_computes",
    "dual_rhs_computes",
    "to_primal_computes",
    "F_symmetric",
    "F_semidefinite",
    "equality_rows_ok",
    "equality_rows_stored",
    "explicit_unsorted_refuted"
   ],
   "note": "over the reals; the sparse solver is an external library given by the matrix it multiplies by; B1 with unsorted columns (mortar) is a finding"
  },
  {
   "property": "C94",
   "status": "proved",
   "theorems": [
    "kernel_distribution_covers",
    "projector_apply_computes",
    "orthogonal_apply_computes",
    "conjugate_applyT_computes",
    "GtintGGtG_computes",
    "GtintGGt_computes",
    "R_computes",
    "RinvGGtG_computes",
    "RinvGGtG_conjugate_zero",
    "factor_computes",
    "invLG_computes",
    "GtinvU_computes",
    "e_computes",
    "P_keeps",
    "G_of_P",
    "P_idempotent",
    "P_symmetric",
    "P_closest",
    "initial_feasible",
    "type_none_stays_refuted",
    "type_kept"
   ],
   "note": "Over the real numbers; the matrices G, R and the inverse of GG^T are those of S_Projector (contract of the factorization). type_none_stays_refuted: the type NONE is never left (finding)."
  },
  {
   "property": "C95",
   "status": "proved",
   "theorems": [
    "gap_is_projected_residual",
    "reconstructed_equilibrium",
    "dual_solution_solves",
    "reconstruct_computes",
    "reconstruct_rbm_computes",
    "kkt_local_computes",
    "kkt_computes",
    "kkt_zero"
   ],
   "note": "Over the real numbers; K+ and the product with K by contract."
  },
  {
   "property": "C96",
   "status": "proved",
   "theorems": [
    "dual_graph_exact"
   ],
   "note": "DualGraph::set for domains, all ranks and schedules; the part for clusters is not modelled."
  },
  {
   "property": "C97",
   "status": "proved",
   "theorems": [
    "projector_G_exact"
   ],
   "note": "over the real numbers; for any graph as in C96"
  },
  {
   "property": "C98",
   "status": "proved",
   "theorems": [
    "projector_GGt_exact"
   ],
   "note": "the factorization and the inverse are not part of this property"
  },
  {
   "property": "C99",
   "status": "proved",
   "theorems": [
    "projector_inverse_exact"
   ],
   "note": "for a direct solver that keeps its contract"
  }
 ]
}