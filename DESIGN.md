# Formal model of ESPRESO: design

The model is written in Rocq (Coq 8.16.1) under `rocq/theories`.  It follows the C++ text in
`/repo/src` function by function.  Each definition cites the file and lines it models.

## Layout

| kind | file prefix | content |
|------|-------------|---------|
| model | `M_*.v` | Gallina transcriptions of the C++ functions, no proofs |
| specification | `S_*.v` | small definitions used only to state properties (independent of the models) |
| proof | `L_*.v` | lemmas |
| property | `P_*.v` | the theorems named in `MANIFEST.json`, one line proofs, examples and `Print Assumptions` |

`Base.v` holds the outcome type (`Ok`, `Fail` = terminated by `eslog::error`, `UB` = undefined
behaviour such as an out-of-bounds access), bounds-checked array reads and writes, and the
64-bit wrap-around operators.

## Trusted base

* Coq's kernel (`coqc`/`coqchk` 8.16.1); no own axioms, no admitted goals.
* The axioms listed by `Print Assumptions` at the end of each `P_*.v` file.  Integer and list models use none.
  Models over the real numbers use the standard library's classical reals
  (`ClassicalDedekindReals.sig_forall_dec`, `sig_not_dec`, `FunctionalExtensionality.functional_extensionality_dep`).
* The transcription from C++ to Gallina (by hand, with line references).
* Contracts of external code: `std::sort`/`std::nth_element`/`std::max_element` are quantified by their contract
  (any result allowed by the standard), MPI point-to-point transfer is reliable and ordered per pair of ranks,
  `MPI_Allreduce/Exscan/Gatherv/...` follow the MPI standard.

## What is modelled for each property and how it is proved

| id | model | proof |
|----|-------|-------|
| C01-C06 | Hilbert conversions on 64-bit words, loops over bits | induction on the refinement depth with the four (2D) / symmetric (3D) orientations as an explicit group of transformations |
| C07, C10, C11 | list transcription / Z arithmetic modulo 2^64 | induction, `lia`/`nia` |
| C08, C09 | loops over vectors with index cursors, `std::sort` and `std::inplace_merge` by contract | loop invariants |
| C12-C14 | byte buffers with cursors | induction over the sequence of values, prefix-parsing lemma |
| C15-C18 | thread-distributed arrays as lists with boundaries | induction over threads |
| C19, C20 | state machine of the arena | invariant by induction over histories |
| C64 | state machine of AllocatorArena_new | invariant by induction over histories |
| C21, C22, C65 | state machine of the circular allocator, one transition per critical section; condition variable with notification flags | invariant by induction over transitions |
| C23, C24, C66, C67 | tree construction level by level, every order of the parallel loop; nth_element and sort by contract; split dimensions arbitrary; coordinates as integers | invariant over levels and nodes |
| C25-C27, C31, C32, C34, C68, C69 | rank programs with send/receive; schedule semantics with rendezvous and buffered sends | choreography: the global trace projects to each rank's program; induction over the halving recursion |
| C29, C30, C33, C71, C72 | rank programs that post sends and then receive from given sources or from any source; arrivals in every order | diamond property: every schedule reaches the state given by the messages addressed to the rank |
| C28, C70 | MPI collective by contract (relation on the values of all ranks) | arithmetic |
| C35-C37, C84 | string functions over lists of characters; `tolower`/`toupper` arbitrary functions | relational specifications (pieces, trimmed text, first difference), induction |
| C38, C39 | tokenizer over the remaining characters of the file; reading behind the file is undefined behaviour | every step shortens the rest; a file is a list of items with gaps, one lemma per item and filler |
| C40, C85 | option tables, bit sets; `std::stringstream` as an arbitrary partial function | lookup lemma, bits of the value against the named options, pieces of the printed text |
| C41 | configuration tree with holders by contract; printer, tokenizer and the token loop of the reader | relation between the tree read into, the stored tree and the result; mutual induction: the printed text is a layout (C39) whose items drive the reader |
| C42-C46 | pointer/index/value arrays with bounds-checked writes | counting-sort invariants |
| C46, C73-C75 | as C42; the map is the value array of the matrix of positions | naturality: what holds for positions holds for every later value array |
| C47-C50, C76 | same arrays | loop invariants |
| C77-C79 | a dense matrix is (rows, columns, leading dimension, order, triangle, symmetry, array); BLAS transposition by contract | one scatter lemma: a loop over distinct positions updates exactly these positions (frame included) |
| C80-C82 | same; values of C82 from a commutative ring (exact arithmetic, no rounding) | loops over the stored entries reduce to one fold over the entry list, then the scatter lemma |
| C51-C53, C83 | CSR / dense arrays of `math`; values abstract, from a field, or real numbers | loop invariants; the elimination keeps the solutions of the remaining columns; refutations by evaluation |
| C54, C55, C86–C88 | search algorithms as state machines over an arbitrary arithmetic, random numbers as arbitrary inputs; logging omitted; of SOMAT3A only the choice of the leader | mixed radix numbers for the exhaustive search; invariants over histories |
| C56, C89 | MPRGP over an arbitrary arithmetic, the operator and the preconditioner as functions; the theorems are about real numbers (`exact`) with any number as the largest double, a quotient by zero is undefined behaviour; reconstruction of the primal solution, prints and times omitted | invariant of the loop (feasible point, gradient, reduced gradient is a feasible direction), energy of a step, KKT conditions |
| C57, C90 | PCPG and the orthogonalized PCPG over an arbitrary arithmetic, with both kinds of projector; F, S, G, Gt and the inverse coarse matrix are functions; C57 for every division (undefined or not), C90 for exact real arithmetic where a quotient by zero is undefined; distribution and prints omitted (see C59, C60) | invariant (residual, constraints, direction in the kernel); conjugacy by induction over the sequence of states; n + 1 vectors of size n are dependent |
| C58 | setInfo/updateInfo over an arbitrary arithmetic with a not-a-number; the specification `verdict` looks at the whole list of norms, not at the ring buffer | ring buffer = last norms |
| C59, C60 | Dual_Map::set, Vector_Dual::synchronize as processes over the message model of C29, dot, copyToWithoutHalo; numbers with an arbitrary addition; the specification starts from the global list of multipliers and their domains (`S_Dual.v`) | encoded blocks are groups of multipliers; pack and unpack invariants; filters commute, so both sides of a message list the same multipliers |
| C91, C92 | EqualityConstrains::set/update/enforce and applyB/applyBt; the specification (`S_Equality.v`) starts from the copies of the global degrees of freedom, lists all constraints and describes B entry by entry; coefficients and products over the real numbers | order of the collected pairs is the restriction of one global order; blocks of equal domains; invariants of the offsets; double sums |
| C93 | TotalFETIImplicit/TotalFETIExplicit (update, apply, toPrimal) and applyB.h; `S_Feti.v` defines B, B^T, K+ and F as sums over all domains and multipliers and what a rank stores of them; the sparse solver of a domain is a function that multiplies by K+ | loops over own domains and rows as sums; F of a domain entry by entry; sums over the sharing ranks as in C92 |
| C94 | M_Projector, M_ProjectorRanks | S_Projector, S_ProjectorRanks | P_Projector | projector.cpp and vector_kernel.cpp on all ranks: local loops with `rd`/`wr`, allGatherInplace and Vector_Dual::synchronize by `completes`/`ncompletes`; the stored G, R1 and inverse are given by S_Projector; `_print` and HFETI variants not modelled |
| C95 | M_Reconstruct | S_Reconstruct | P_Reconstruct | reconstructSolution (both), BtL, the sums of FETI::solve; K+ and K by contract, square roots and printing not modelled |
| C96 | M_DualGraph | S_DualGraph | P_DualGraph | DualGraph::pushVertex and set for domains (dualgraph.cpp:13-98); std::map as sorted list; exscan from M_Scan, the exchange from M_Exchange; clusters and spread not modelled |
| C97 | M_ProjectorG | S_ProjectorG | P_ProjectorG | TFETIOrthogonalSymmetric::_setG and _updateG (tfeti.orthogonal.symmetric.cpp:95-179) for any result of M_DualGraph as in C96; content of new arrays arbitrary; values over the reals, B1 and R1 as in M_TotalFeti and M_Projector |
| C98 | M_ProjectorGGt | S_ProjectorGGt | P_ProjectorGGt | TFETIOrthogonalSymmetric::_setGGt and the values of _updateGGt (tfeti.orthogonal.symmetric.cpp:181-278) for the graph of C96 and G of C97; fewer than 2^31 - 1 elements (the indices are int); indices from Indexing::CSR as in C102; content of new arrays arbitrary; values over the reals |
| C99 | M_ProjectorGGt | S_ProjectorInverse | P_ProjectorInverse | the inverse in TFETIOrthogonalSymmetric::_updateGGt (tfeti.orthogonal.symmetric.cpp:280-307): DirectSparseSolver is a function of the CSR arrays and a right side with the contract [solves] / [factorizes] of S_ProjectorInverse (exact for a symmetric positive definite matrix); that G G^T is such a matrix is proved from the independence of the rows of G |
| C100 | M_ProjectorUpdate | S_ProjectorUpdate | P_ProjectorUpdate | TFETIOrthogonalSymmetric::update (tfeti.orthogonal.symmetric.cpp:32-82) and Projector::reset, composed of C96-C99, Vector_Kernel::set and e; the allreduce of the flags is their disjunction; the decomposition is the same in all updates; Fx and _print are left out |
| C101 | M_Assembly | S_Assembly | P_Assembly (L_Numbering) | MatrixUniformFETI::fillDecomposition (matrix.uniform.feti.cpp:125-192), FEM and BEM; the index -1 is `None`; the positions of halos and decomposition.update are left out |
| C102 | M_Assembly | S_Assembly | P_Assembly (L_Pattern, L_Pattern2-5) | buildPattern (195-297) and set (matrix.uniform.feti.h:64-74), full and upper shape; uninitialised vectors have any contents; std::sort by contract; the arrays of the CSR format start with Indexing::CSR (M_Indexing, 0), which the proofs do not unfold; regions of the boundary and the dense matrix of BEM are left out |
| C103 | M_Assembly | S_Assembly | P_Assembly (L_Fill, L_Fill2) | permutation of buildPattern and MatrixFillerKernel::simd (filler.h:42-87) over chunks and intervals; addition is any function, so the order of the sum is exact |
| C104 | M_Distributed | S_Distributed | P_Distributed (L_Distributed, L_Distributed2) | decomposition.direct.cpp, Sync of vector.uniform.dense.cpp, synchronization.h for all ranks; communication by its results (C71, C72); addition is any function; `multiple_rhs_refuted` |
| C105 | M_Distributed | S_Distributed | P_Distributed (L_Distributed, L_Distributed2) | the two halves of the synchronization |
| C106 | M_VectorFeti | S_VectorFeti | P_VectorFeti (L_VectorFeti) | vector_distributed.h:151-178, vector_feti.h:57-80, 160-171, 241-252 on one rank, on top of the numbering of C101 |
| C107 | M_VectorFeti | S_VectorFeti | P_VectorFeti (L_VectorFeti2, L_VectorFeti3) | sumTo and averageTo on all ranks, on top of C104; any addition and division |
| C108 | M_VectorFeti | S_VectorFeti | P_VectorFeti (L_VectorFeti2) | _dot of every rank; `same_domains`: the ranks agree on the domains of shared nodes |
| C109 | M_VectorFeti | S_VectorFeti | P_VectorFeti (L_VectorFeti3) | MatrixUniformFETI::Apply; the product of a domain is a parameter |
| C110 | M_DistMatrix `build_patterns` | S_DistMatrix `distributed_mesh`, `rows_of_mesh` | P_DistMatrix | All ranks together; exchangeUnknownSize delivers what C29 states, without its size limit. std::sort by contract. Without the output and pattern.ncols. `distributed_mesh`: nodes of a rank are the halo followed by the own nodes, ranks of a node are exactly those that have it and are neighbours, no element has a node twice (needed: `repeated_node_refuted`). |
| C111 | M_DistMatrix `permute_eintervals` | S_DistMatrix `element_entries`, `permutation_of_mesh` | P_DistMatrix | std::lower_bound by its result on sorted ranges. Boundary regions left out (the same loop). |
| C112 | M_DistMatrixSync `minit`, `gather_matrix` | S_DistMatrixSync `has_entry`, `entry_values` | P_DistMatrixSync (L_DistMatrixSync, L_DistMatrixSync2) | Proved by reducing entries to DOFs of a vector (C104): an entry is numbered by the lengths of the rows before it. Patterns are those of C110. scatterToUpper is not called by the code and not modelled. |
| C113 | M_DistMatrixSync `assemble_rank` with the kernel of C103 | S_DistMatrixSync `rank_value`, S_Assembly `assembled` | P_DistMatrixSync (L_DistMatrixFill, L_DistMatrixFill2) | Element matrices are any values. Boundary regions left out. The order of additions is exact in `distributed_assembly_exact`; `distributed_assembly_sum` assumes associativity. |
| C114 | M_DistApply `ainit`, `apply_matrix` | S_DistApply `row_product` | P_DistApply (L_DistApply, L_DistApply2, L_DistApply3) | std::sort by contract, std::set as an increasing list. The product with the local CSR matrix is by contract what MKL computes for a general matrix: any function of the pairs of a row and of the former value. All histories of products and vector synchronizations. The example has two ranks that are coupled only by an element of a third one. |
| C115 | M_DistApply with M_DistMatrixSync | S_DistApply `assembled_row_product` | P_DistApply | Composition of C113 and C114: pattern, assembly, gather and product. |
| C116 | M_NodeInfo `sort_nodes` | S_NodeInfo `ordered_nodes`, `same_nodes`, `same_region` | P_NodeInfo (L_NodeInfo5) | IDs are natural numbers; permute as C18 states, threads left out. |
| C117 | M_NodeInfo `synchronize_region_nodes` | S_NodeInfo `shared_nodes`, `in_region`, `agreed_region` | P_NodeInfo (L_NodeInfo, L_NodeInfo3) | All ranks together; messages as in C29 without its size limit. |
| C118 | M_NodeInfo `compute_node_info` | S_NodeInfo `numbered_region` | P_NodeInfo (L_NodeInfo2, L_NodeInfo4) | exscan for all ranks by its result (C28); the vectors position are empty before the call. |
| C119 | M_NodeInfo `compute_regions_element_nodes`, `compute_regions_boundary_nodes`, `get_position` | S_NodeInfo `given_nodes`, `nodes_of_elements` | P_NodeInfo (L_NodeInfo6) | On top of C117, C118 and of the utilities of M_Utils. |
| C120 | M_NodeInfo | S_NodeInfo `mesh_parts` with S_DistMatrix `distributed_mesh` | P_NodeInfo (L_NodeInfo7) | Discharges the hypotheses of C104-C115 from what the input gives. |
| C121 | M_NodeBox | S_NodeBox `is_box` | P_NodeBox (L_NodeBox) | Coordinates are integers: doubles are only compared; arrays of points instead of 3 * regions doubles. |
| C122 | M_Links | S_Links `neighborhood` | P_Links (L_Links) | The neighbours include the process itself. `duplication_shares_nodes` gives the hypothesis of C116 to C121. |
| C123 | M_Links | S_Links `linked_mesh`, `linked_nodes` | P_Links (L_Links2 to L_Links5) | Only sorted IDs. Iterations of parallel loops in any order, but not interleaved: a thread reads (only compares) the first link of the next thread, see Findings. |
| C124 | M_Links | S_Links `sharing`, `stored_neighbors` | P_Links (L_Links6) | Faces are lists of positions of nodes; data that do not depend on the mesh (Element tables) are given. |
| C125 | M_Precond | S_Precond `lumped_of` | P_Precond (L_Precond6) | Product with K by contract. |
| C126 | M_Precond | S_Precond `is_schur`, `packed_upper`, `extension`, `is_dirichlet` | P_Precond (L_Precond to L_Precond6) | Solver, BLAS and std::sort by contract; getSC of MKL is not modelled, its result is an argument of `dirichlet_apply_schur`. Real numbers. |
| C127 | M_Precond | S_Precond `extension`, `is_dirichlet` | P_Precond (L_Precond3 to L_Precond6) | As C126. |
| C128 | M_PcpgRanks (PCPG::solve with every step on every rank; the vector updates are local, scalar products are sums over the owned multipliers of all ranks, projections and operators as in C94, C95, C125 to C127; the arrays and buffers of the projector at the beginning of each call are fixed, any content) | S_PcpgRanks `global`, `multipliers_of`, M_Pcpg on whole vectors | P_PcpgRanks (L_PcpgRanks) | Refinement: every rank holds its elements of the state with whole vectors; prints and time measurement omitted. |
| C129 | M_PcpgRanks `run_solve` (right-hand sides d and e, PCPG, reconstruction) | S_PcpgRanks `semidefinite`, `spans_kernel`, `independent`, `is_preconditioner`, S_Reconstruct `equilibrium`, `compatible` | P_PcpgRanks (L_PcpgRanks2) | Energy of the domains gives a definite dual operator, then C90, C95 and C128. |
| C130 | M_Equality, M_Assembled (B1 of the constraints as input of the solver), M_PcpgRanks | S_Assembled | P_Assembled (L_Assembled) | Composition of C91 and C129: the rows of B are independent (orthonormal), the forces of the multipliers vanish in the sum over the copies; the data of the projector (`keeps`), the solvers of the domains and their kernels by contract. |
| C131 | M_Equality, M_ProjectorUpdate, M_PcpgRanks, M_Assembled | S_WellPosed | P_WellPosed (L_WellPosed) | Composition of C100 and C130: full rank of G from the uniqueness of the assembled solution and the independence of the kernels of each domain, so the projector that `run_update` builds is the one PCPG uses; the direct solvers by contract, int ranges as in C100. |
| C132, C133 | M_Counters | S_Counters | P_Counters (L_Counters) | computeElementDistribution, computeRegionsElementDistribution, computeRegionsBoundaryDistribution on all ranks and the MESIO functions that read their results; MPI_Exscan and MPI_Allreduce by their meaning, elements by their codes, `threads` of the distribution not modelled. |
| C134 | M_DualMatrix | S_DualMatrix | P_DualMatrix (L_DualMatrix) | Matrix_Dual::synchronize on all ranks and TotalFETIImplicit::apply for a matrix without or with a filter of rows; the static buffers are passed from call to call; overflow of int in positions not modelled, nor the variant with lists of domains per row. |
| C135 | M_Smalbe, M_Mprgp, M_DualVector | S_Smalbe, S_Mprgp | P_Smalbe (L_Smalbe, L_Mprgp2, L_RVec) | SMALBE::solve: homogenization, translated bounds, the augmented operator and its preconditioner, inner stopping criterion, outer loop, amplitudes of kernels and report; exact arithmetic, whole vectors; the functions of the projector are given by a contract, the estimate of the largest eigenvalue is a parameter; the number of passes of the outer loop is a parameter because passes whose inner loop stops at once are not counted; the reconstruction of the primal solution is not modelled (C129-C131) |
| C136 | M_Power, M_DualVector | S_Power, S_Smalbe, S_Mprgp | P_Power (L_Smalbe, L_RVec) | estimateMaxEigenValue, estimateMaxProjectedEigenValue and the norm of the vector of getInitVector; exact arithmetic, whole vectors; the signs of the first vector are a parameter, its synchronization is that of C59 and is not repeated; the limit of iterations is not negative |
| C137 | M_BoundaryValues | S_BoundaryValues | P_BoundaryValues (L_BoundaryValues) | both constructors and buildPattern of VectorUniformSparse, its map, VectorSetterKernel<1> and the loop over regions and threads of Assembler::assemble; not the evaluation of expressions, the lookup of regions by name and the chunks of SIMD |
| C138 | M_Loads | S_Loads | P_Loads (L_BoundaryValues) | buildPattern and map of VectorUniformDense, RHSFillerKernel::simd without chunks, the use of offsets by DataFiller::activate, the loops of Assembler::assemble; not the computation of the vectors of elements |
| C139 | M_SetDirichlet | S_SetDirichlet | P_SetDirichlet | DirectLinearSystemSolver::setDirichlet on one process; any ring instead of floating point; not the halo and the exchange of eliminated columns between processes |
| C140 | M_UpperCopy | S_UpperCopy, S_SetDirichlet | P_UpperCopy | copyPattern and copyValues of the sequential direct solver for symmetric types; not the factorization |

## Not modelled

GPU code, third party solvers (MKL, SuiteSparse, ...), floating point rounding (unless a property says so),
mesh I/O formats, physics kernels, OpenMP data races other than in the circular allocator.

## Findings

Statements that are false of the code are proved as `..._refuted` theorems (a concrete witness evaluated by the kernel).

* **Hilbert curve** (`hilbert2_overflow_refuted`): the index of a grid with side `2^(W/2)` or more does not fit into `W` bits
  and two different cells share one index.
* **utils::inplaceMerge** (`inplaceMerge_empty_distribution_refuted`): an empty distribution is undefined behaviour.
* **utils::round_up / divide_round_up** (`round_up_zero_refuted`, `divide_round_up_zero_refuted`): for the unsigned instance and
  argument 0 the helpers compute `0 - 1`; `round_up(0, 3)` is 2 and `divide_round_up(0, 4)` is `2^62`.  The signed
  `divide_round_up(0, 4)` is 1.
* **tarray::pack** (`tarray_pack_aligned_refuted`): the data are copied from the start of the allocation, not from the aligned
  start, so an aligned array does not survive pack/unpack.  The program packs only arrays without alignment.
* **serializededata move constructor** (`serializededata_move_uniform_refuted`): the iterators of fixed-size records are
  initialised from the (empty) boundaries: out-of-bounds read.
* **tarray::distribute** (`distribute_signed_overflow_refuted`): with 32-bit `esint` and more parts than `sqrt(2^31)` the product
  `t * chunksize` can overflow.
* **serializededata::balance** (`balance_various_empty_target_refuted`): an inner thread that should become empty makes the
  function read before the first boundary; (`balance_default_distribution_refuted`): without a given distribution the
  fixed-size version distributes elements instead of records.
* **serializededata iterators** (`iteration_empty_first_thread_refuted`): thread 0 has to hold the first boundary.
* **arena_allocator_resource** (`arena_free_size_full_refuted`): the offset is advanced by at least one alignment step beyond the
  block (`(offset + 1) / align + 1`), so a full arena reports `2^64 - 8` free bytes.  (`arena_huge_request_refuted`): a request
  near `2^64` wraps the offset and succeeds.
* **AllocatorArena_new** (`arena2_remaining_refuted`): the same underflow if the alignment does not divide the capacity.
* **cbmba_resource** (`cbmb_align3_refuted`): alignments that are not powers of two are not respected; (`cbmb_pool6_refuted`): if the
  pool size does not divide `2^64`, an empty transaction on an idle resource moves the position to the middle of the pool and a later
  request waits although nothing is held; (`cbmb_transaction_selfdeadlock_refuted`): when the resource becomes idle during
  a transaction the position restarts at 0 but `transaction_end_fail` is kept, so a too large transaction waits for itself;
  (`cbmb_position_wrap_refuted`): overlap after the 64-bit position wraps.  `do_transaction` reads and writes
  `start_empty` without holding `mtx_blocks` (data race, modelled as atomic).
* **KDTree::getMidPoint** (`kdtree_mid_point_empty_refuted`): a bucket can be empty (repeated coordinates); then the result is -1,
  which `MorphingMatrixPreconditioner` uses as an array index.
* **Communication::allReduce** (`all_reduce_equal_refuted`): the result is the same on all ranks only if the operation is associative;
  sums of `double` on seven ranks differ between ranks.
* **Communication::allGatherUnknownSize** (`all_gather_limit_refuted`): the limit of the message size is tested by each rank alone.  A
  rank above the limit returns `false` and the others wait for ever.  The same pattern is in uniqueAllGather, allToAll, the exchanges and
  `balance`.  Only the initial size is tested, the accumulated count can exceed `int`.
* Not formalised: `allGatherInplace` does not divide the received size by the size of a non-native type; `exscan` of a non-native
  type is a TODO and leaves the value unchanged; `uniqueAllGather` calls `profiler::syncend` twice; `receiveUpperKnownSize` and `balance`
  return without `profiler::syncend`; `receiveLower/UpperKnownSize` leave an unset request if the rank is its own neighbour.
* **Communication::sendVariousTargets** (`send_various_twice_refuted`): two messages of a rank to one target are counted once
  (`smsgcounter[target] = 1`), one of them is never received.
* **Communication::exscan** (`exscan_rank0_overflow_refuted`): rank 0 evaluates `value + size` although MPI_Exscan does not set `value`
  there; with a signed type this can overflow although all scanned sums fit.
* **complete_csx_csy_map, empty last lines** (`complete_trailing_line_refuted`): the pointers of trailing empty rows of the
  completed matrix are never written and keep their old contents.
* **complete_csx_csy_map, conjugation** (`complete_conj_orders_refuted`): if source and destination have different storage
  orders the stored triangle is conjugated instead of the mirrored one.  With equal orders also the diagonal is conjugated
  for half of the order/triangle combinations, which is invisible for a Hermitian matrix.
* **convert_dnx** (`convert_dense_refuted`, `convert_hermitian_writes_indices`): converting a complex Hermitian matrix stored as a triangle
  to a full matrix of the other order conjugates the loop index (`prim[is] = std::conj(is)`), so every element of the result is a
  column (row) number.
* Not formalised: `copy_dnx` of a non-square matrix with a stored triangle computes a negative number of elements (undefined behaviour in
  the model); `permute_csx_dny` always stops with "not tested".
* **prune_csx_matx, dense result** (`prune_dense_none_refuted`): if neither rows nor columns are pruned the dense destination is filled
  with zeros and the values are never copied.
* Not formalised: `prune_csx_matx::set_matrix_dst_dn` tests the pointer of the sparse destination.
* **math _permute of a sparse matrix** (`permute_csr_without_diagonal_refuted`): the row pointers are set only for rows that receive an
  entry, so a row that becomes empty keeps the old pointer.  Matrices with a full diagonal are not affected (`permute_csr_moves`).
* **math _getKernel of a dense matrix** (`kernel_order_dense_refuted`): the permutation vector is built for the sparse `_permute`
  (B(p(i),p(j)) = A(i,j)), the dense `_permute` gathers (B(i,j) = A(p(i),p(j))) and orders the matrix by the inverse permutation.
* **spblas::submatrix to dense, lower triangle** (`submatrix_dense_lower_refuted`): the position in the packed lower triangle is computed as
  `r * ncols + r * (r - 1) / 2 + c` and leaves the array of n(n+1)/2 elements.
* **spblas::submatrix to dense, window on the other side of the diagonal** (`submatrix_dense_other_side_refuted`): for a symmetric matrix
  stored as one triangle a window outside of the stored triangle is returned as zero.
* Not formalised: `_getNullPivots` passes `<=` to `std::max_element`, which is not a strict weak order (the model is the linear scan of the
  common implementations); `_getRegMat` uses the first stored element of a row as the diagonal element (right for a stored upper triangle).
* **Parser::split** (`split_of_join_refuted`): a trailing empty piece is lost (`"a,"` gives one piece).
* **Parser::strip** (`strip_idempotent_refuted`): the white space is removed before the comment, so the blanks before `#` stay.
* **StringCompare::caseSensitivePreffix** (`case_sensitive_preffix_refuted`): a text that is a proper prefix of the pattern is read behind
  its end (called for file headers in `msh.parser.cpp` and `vtklegacy.cpp`).
* **Parser::stringwithcommas** (`stringwithcommas_refuted`): numbers of 10^12 and more miss a comma.
* **Tokenizer::next** (`reads_outside_refuted`): a file that ends by a blank or by a comment without line end is read behind its end.
* **Tokenizer::next** (`comment_joins_words_refuted`): `ab/*c*/ d` is the single word `abd`.
* **Tokenizer::line** (`line_number_refuted`): the line end behind a word is counted twice.
* **ECFEnumHolder** (`enum_index_refuted`, `enum_no_flag_refuted`): an index outside of the options is accepted and `getValue` then reads outside
  of the options; no flag is printed as an empty text that is refused; naming a flag twice is refused.
* **ECFVectorHolder** (`vector_empty_refuted`, `vector_roundtrip`): an empty vector is printed as an empty text that is refused;
  setting a vector appends to the old values.
* **ECFReader** (`text_value_refuted`, `empty_configuration_refuted`): blanks inside of a text value are merged and quotes are lost by storing and
  reading; a stored configuration without parameters makes the tokenizer read behind the file.
* **ECFReader::_read** (`missing_semicolon_refuted`, `missing_semicolon_in_object_refuted`): an assignment without semicolon is ignored at the end of
  the file, and before `}` it is applied to the enclosing object.
* **AllPermutationsAlgorithm** (`all_permutations_integer_refuted`): integer parameters reach the largest int and then the conversion of a
  double to int is undefined.  The reported values are appended to the specimen for ever.
* **SOMAAlgorithm** (`soma_best_refuted`): a journey better than the best specimen is taken over only after all journeys of the individual.
* **ParameterManager::generateConfiguration** (`generated_integer_refuted`): integer parameters are generated from 32-bit unsigned numbers
  (with a 64-bit difference), the conversion to int is undefined for many of them.
* **OptimizationProxy::setConfigurationForbidden** (`forbidden_not_recorded_refuted`): the test of the rank is inverted.  Rank 0 ignores the
  failed configuration (`EvolutionaryOptimizer::run` then sets the same specimen again), other ranks use the uninitialized `m_alg`, as does
  the destructor.
* **SOMAT3AAlgorithm** (`leader_is_first_or_dangling`): the leader points to a local variable of a finished iteration whenever a later candidate is better.
* **MPRGP::solve** (`mprgp_status_at_limit_refuted`): a criterion met in the last allowed iteration is reported as an error; with the default
  limit 0 the solver reports an error always.
* **IterativeSolver::updateInfo** (`status_zero_period_refuted`, `status_arioli_refuted`): `max_stagnation = 0` is a remainder by zero; the
  criterion ARIOLI is never met.
* **PCPG::solve** (`pcpg_exact_refuted`, `pcpg_success`, `ex_previous`, `ex_nan`): the criterion is tested for the iterate before the pass, so
  success may be reported for an iterate that does not meet it; after an exact solution one more pass computes 0/0, and the solution made of
  not-a-numbers is reported as success.
* **OrthogonalizedPCPG** (`ex_ortho_two`, `ex_ortho_second`, `ex_ortho_conjugate`, `orthopcpg_invariant`): with several local intervals only
  the last one is used for the orthogonalization; `pFp` and `yFp` are not emptied between two solutions; with the conjugate projector the
  iterates satisfy G F x = e instead of G F x = G d.
* **Vector_Dual::synchronize** (`synchronize_floating_point_refuted`): the ranks add the contributions of the others to their own value in
  different orders, so with doubles three ranks that share a multiplier may end with different values (two ranks agree, `synchronize_pairs`).
* **Vector_Dual::synchronize** (`synchronize_too_long_refuted`): the result of the exchange is ignored; with a message of more than 2^30 bytes the
  rank does not communicate at all and adds the content of the receive buffers from before.
* **EqualityConstrains::set** relies on conditions it does not check: all ranks list the degrees of freedom in the same relative order and agree
  on the fixed ones (otherwise the same position of `cmap` means different multipliers on two ranks), and it is called once (`feti.lambdas.cmap`,
  `feti.D2C` and `feti.lambdas.intervals` are appended to and never emptied).
* **TotalFETIExplicit::update** (`explicit_unsorted_refuted`): the dense copy of a row of B1 is filled by one pass that assumes increasing columns;
  the mortar constraints (`mortar.cpp`, update) append the entries in the order of the nodes, so a row may be unsorted: values are then written at
  wrong columns, in the last row behind the array. The implicit operator does not depend on the order.

**Projector: `GGT_TYPE::NONE` is never left** (`type_none_stays_refuted`).  `_updateGGt` (tfeti.orthogonal.symmetric.cpp:280-305, the same in the
conjugate and HFETI variants) sets `GGTtype = NONE` when there are no kernels at all, and nothing sets it back: if a later update has kernels
(`update` is prepared for a changed number of kernels), `_apply_invGGt` does nothing and `_apply_Gt` uses the uninitialized `iGGtGx`.
`type_kept`: the type stays GGT or LU as long as every update has a kernel.

**Vector_Kernel::set does not divide by the number of threads** (vector_kernel.cpp:17): `tsize` is `size / chunk`, so the first thread gets
`tsize * chunk` rows, i.e. nearly all of them.  The distribution is still valid (`kernel_distribution_covers`); only the parallelism is lost.

**The projector keeps a stale pattern** (C100, `stale_pattern_refuted`; tfeti.orthogonal.symmetric.cpp:35-41): the graph of domains and the
patterns of G and G G^T are rebuilt only if the number of multipliers of a rank or the number of kernels of a domain changes.  If the
multipliers glue other domains than before, e.g. because contact pairs change, and their number stays the same, `_updateG` writes the new
values to the columns of the old multipliers.  Counterexample: one rank, multipliers of domains {0, 1}, {0, 2} become {0, 2}, {0, 1}.

**DOFs of harmonic analysis** (C101, `harmonic_dofs_refuted`; matrix.uniform.feti.cpp:72, 98, 101, vector.uniform.dense.cpp:29): the constructor for
structural mechanics multiplies the dimension by the multiplicity twice, `dofs = dimension * multiplicity` and `fillDecomposition(dofs *
multiplicity)`; the dense vector uses `dimension * multiplicity`.  The harmonic analysis passes the multiplicity 2
(structuralmechanics.harmonic.real.linear.cpp), so its matrices are numbered with 12 DOFs in a node (in 3D) and its vectors with 6.

**Pattern of boundary elements** (read only, not modelled; matrix.uniform.feti.cpp:319-330): for the upper shape the permutation of elements runs over
`r <= c` of the whole matrix, the permutation of boundary elements over nodes `to >= from` for all pairs of DOFs.  With more than one DOF in a node
the two orders differ, so a boundary matrix inserted by MatrixFillerKernel would get wrong positions.  The map of the boundary is still a TODO
(matrix.uniform.feti.h:95), nothing uses it yet.

**Only the first right-hand side is synchronized** (C104, `multiple_rhs_refuted`; vector.uniform.dense.cpp:144-177): the synchronization of a dense matrix
of several vectors runs over `cluster.ncols` values from the beginning of the values, i.e. over the first vector; the others keep the local sums.

**Direct matrix, scatter** (read only, not modelled; matrix.uniform.direct.cpp:329-344): `scatterToUpper` calls `receiveUpperUnknownSize` with the
buffers of the opposite direction, so that the result of the owner never arrives.  Nothing calls it: the matrix is only gathered.

**Pattern with configuration** (read only; pattern.h:44-50): the constructor with a configuration initialises the synchronization of vectors but
not that of dense matrices.

**Several right-hand sides of a FETI vector** (read only, not modelled; vector_feti.h:173-186, 253-266): copyTo and addTo for a dense matrix use the
number of rows of the distributed matrix as the stride in the vectors of domains, which have fewer rows; with more than one right-hand side
the accesses are at wrong positions.
- MatrixUniformDirect::buildPattern (matrix.uniform.direct.cpp:75-78, 115-123) counts `size - 1` couplings for every occurrence of a node in an element but pushes only those to different nodes. If an element has a shared node twice, more indices are announced to the neighbours than are sent and the receiver reads behind the message (`repeated_node_refuted`). Without sharing only capacity is wasted.
- MatrixUniformDirect::Sync/Apply (matrix.uniform.direct.cpp:272-472) subtract Indexing::CSR from a pattern that is stored zero-based; it is right only because Indexing::CSR is 0 (C112, C114 use this value).
- MatrixUniformDirect::Apply::init copies the shape of the matrix to the local part, although all couplings are stored and the local part is not square: a wrapper that reads only one triangle for a symmetric shape (SuiteSparse) would multiply by a wrong matrix on more processes. Read from the code, not proved.
- The wrapper of MKL creates its handle only for a matrix with entries (w.mkl.spblas.cpp:74) but the product calls mkl_sparse_d_mv in any case: a process that owns no DOF would pass a handle that was never created. Read from the code, not modelled: in M_DistApply the product of an empty local matrix is empty.
- computeNodeInfo (clustered.cpp:555-556) adds the coordinates of all regions to the box of the first region. This is right for ALL_ELEMENTS and ALL_NODES, but Mesh::updateMeshCoordinates calls it with contact interfaces only (mesh.cpp:538-540): the first contact interface gets the box of all interfaces (`first_interface_box_refuted`).
- linkNodesAndElements (pure.cpp:214): the loop over nodes ends with the links. Nodes behind the last node that is in an element get no record, a later `nelements->cbegin() + n` for them is out of bounds (`record_of_every_node_refuted`). Nodes without elements before it get an empty record. If the first thread has no nodes but another one has, the leading 0 of the boundaries is missing (pure.cpp:200, 210-212); C123 requires that the first thread has a node.
- linkNodesAndElements (pure.cpp:139-155): a thread stops at the first link of the next thread's nodes and compares its node while that thread may replace the position of the node by its ID: a data race. The outcome is right for both values since the ID of the n-th node in order is at least n (used in the proof: threads may finish in any order).
- computeElementsNeighbors (pure.cpp:305-331): links of a node list an element as many times as the element lists the node. For an element with a repeated node (a degenerate hexahedron) the filtered list keeps both, and a face of two elements is refused as "a face shared by 3 elements" if the repeated node is the first one of the neighbour's face (`degenerate_element_refuted`).
- Dirichlet preconditioners (dirichlet.cpp:104-105, dirichlet.implicit.cpp:89-90): math::permute puts every entry into the upper triangle. For a K stored with both triangles (matrix.uniform.feti.cpp:42-51 selects the shape FULL for anisotropic conductivity and for translation motions; nothing is checked) the entries of both triangles are added: the off-diagonal elements of a symmetric K count twice, and an unsymmetric K is replaced by its upper-triangular sums (`implicit_dirichlet_full_refuted`).
- DirichletImplicit::update is also called if only B was changed but uses the surface found by set() (dirichlet.implicit.cpp:55-67, 86-90). C127 is about B1 as it was in set(). Read from the code, not proved.
- computeRegionsBoundaryDistribution (clustered.cpp:418-419): `process.next` is not moved by the offset as it is for regions of elements (pure.cpp:2028), so it is the local size and not the end of the numbers of the rank (`boundary_next_refuted`); no reader of this value was found. The distribution is not cleared first, unlike in the two other functions: calling it again for the same regions would add up. Read from the code, the second not proved.
- Matrix_Dual::synchronize (matrix_dual.cpp:14): only the size of the buffer for the first neighbour decides whether the static buffers are enlarged. If a rank shares no multiplier with its first neighbour, the size there is always 0; after a call with c rows a call with more rows writes behind the buffers of the other neighbours (`matrix_buffers_refuted`).
- TotalFETIImplicit::apply for a matrix with a filter (totalfeti.implicit.cpp:160-172): the whole matrix is synchronized, so the copies of rows that are not selected are added as well (part of `implicit_apply_matrix_computes`).
- SMALBE::solve (smalbe.cpp:192, 234): `info.converged = true` is overwritten by `info = mprgp_info`, whose flag is false (line 68) and is not written by MPRGP::run. Convergence is never reported (`smalbe_converged_refuted`, `smalbe_met`), and a criterion met in the last allowed iteration is reported as MAX_ITERATIONS_REACHED because `!info.converged` in line 242 is always true.
- SMALBE::solve (smalbe.cpp:121-122): the feasible point is computed to `mprgp.x`, but MPRGP::run starts from `mprgp.x0` (mprgp.cpp:153-159), which was not made feasible. `smalbe_feasible` therefore assumes that zero is between the bounds.
- SMALBE::solve (smalbe.cpp:80-83): feti.lb and feti.ub are translated in place and not restored. Read from the code, not proved: a second solve with the same bounds would use bounds translated twice.
- SMALBE::solve (smalbe.cpp:76, 86): a right-hand side of the constraints with the norm at most 10 * precision (absolute, not relative to any data) is replaced by zero; `smalbe_criterion` is stated with this `treated` right-hand side.
- SMALBE::solve (smalbe.cpp:173): the outer loop is limited only by the iterations of MPRGP; a pass whose inner criterion holds at the start adds none, so nothing in the code bounds the number of passes. Read from the code, not proved.
- estimateMaxEigenValue (dualoperator.cpp:343-352): the estimate is never above the largest eigenvalue (`estimate_bounds`), and it may be another eigenvalue (`estimate_largest_refuted`). MPRGP::solve uses alpham / estimate as the length of the steps and the default of alpham is 2 (feti.cpp:158), so the condition under which C89 proves descent, alpha <= 2 / largest eigenvalue, holds with the default only if the estimate is exactly the largest eigenvalue.
- estimateMaxEigenValue (dualoperator.cpp:343-351): the first estimate is compared with the norm of the first vector, 1, which is unrelated to the operator; if the first gain is close to 1 the method ends after one iteration.
- estimateMaxEigenValue (dualoperator.cpp:345) does one iteration more than `power_maxit`, estimateMaxProjectedEigenValue (line 366) as many as `power_maxit` but reports one more; its arguments rho and normPFP are not used.
- estimateMaxProjectedEigenValue (dualoperator.cpp:374-376): nothing handles a first vector whose projection is zero; the estimate is then zero, the relative change infinite, and the next iteration scales zero by infinity (`projected_runs_refuted`).
- VectorUniformSparse for structural mechanics (vector.uniform.sparse.cpp:44, 51-57, 61-71): dofs already contains the multiplicity and the loops multiply by it again. With multiplicity 2 (structuralmechanics.harmonic.real.linear.cpp:54) the loop over d reads data[3] and further of an array of three expressions as soon as a displacement is configured (`harmonic_displacements_refuted`), and the index n * dofs * multiplicity + m * dofs + d is not within isset.
- Regions that prescribe the same component are not reported; the last region in the order of the mesh wins (`displacements_prescribed`), not the last one in the configuration file.
- Forces in nodes of regions with elements (vector.uniform.dense.cpp:53-65, structuralmechanics.cpp:549-556, 587-588): for such regions the offsets of VectorUniformDense contain the intervals of faces first and the threads of nodes behind them, but the kernels of nodes are activated with the index of the thread alone. A FORCE or HARMONIC_FORCE prescribed on a region with elements is added through the positions of its faces, which are stored by components, so components of other nodes are loaded (`nodal_loads_refuted`). For regions of nodes only it is right (`loads_added`).
- sequentialsolver.h:44-51: copyPattern counts into the number of nonzeros of the new matrix without setting it to zero first, so a second call of set would allocate, and report to the solver, more entries than rows and cols describe. The physics call set once.
