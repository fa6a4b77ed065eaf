{"id": "C01", "title": "2D Hilbert: cell -> index -> cell is the identity", "statement": "For every grid side n=2^k and every cell (x,y) with x,y<n, converting the cell to its Hilbert index and converting that index back yields (x,y).", "quantifier": "every k>=0 and every cell of the n x n grid", "why_tests_cant": "the grid side is unbounded; tests only enumerate small grids", "anchors": ["src/basis/sfc/hilbertcurve.cpp: HilbertCurve::D2toD1, D1toD2, rotateD2"]}
{"id": "C02", "title": "2D Hilbert: index -> cell -> index is the identity and stays in range", "statement": "For every n=2^k and every index d<n^2, the decoded cell lies in the grid and encodes back to d; every cell encodes to an index <n^2. Hence the curve visits every cell exactly once.", "quantifier": "every k>=0, every index below 4^k", "why_tests_cant": "needs all indices of all grid sizes", "anchors": ["src/basis/sfc/hilbertcurve.cpp: D1toD2, D2toD1"]}
{"id": "C03", "title": "2D Hilbert: consecutive indices are neighbouring cells", "statement": "For every n=2^k and d+1<n^2 the cells of d and d+1 differ by exactly one in exactly one coordinate.", "quantifier": "every k>=0, every index d with d+1<4^k", "why_tests_cant": "locality must hold at all quadrant borders of all recursion depths", "anchors": ["src/basis/sfc/hilbertcurve.cpp: D1toD2"]}
{"id": "C04", "title": "3D Hilbert: cell <-> index conversions are mutually inverse and in range", "statement": "For every n=2^k, D3toD1 maps the n^3 cells one-to-one onto the indices below n^3 and D1toD3 is its inverse.", "quantifier": "every k>=0, every cell and every index", "why_tests_cant": "unbounded refinement depth", "anchors": ["src/basis/sfc/hilbertcurve.cpp: D3toD1, D1toD3, rotateD3"]}
{"id": "C05", "title": "3D Hilbert: consecutive indices are neighbouring cells", "statement": "For every n=2^k and d+1<n^3 the cells of d and d+1 differ by exactly one in exactly one coordinate.", "quantifier": "every k>=0, every index d with d+1<8^k", "why_tests_cant": "unbounded refinement depth", "anchors": ["src/basis/sfc/hilbertcurve.cpp: D1toD3"]}
{"id": "C06", "title": "Hilbert refinement is nested", "statement": "Refining the grid once splits every bucket in place: the index of a cell in the 2n grid divided by 4 (8 in 3D) is the index of its parent cell in the n grid.", "quantifier": "every k>=0, every cell of the refined grid, 2D and 3D", "why_tests_cant": "splitter search relies on it at every depth", "anchors": ["src/basis/sfc/hilbertcurve.cpp: D2toD1, D3toD1", "src/basis/sfc/spacefillingcurve.cpp: SpaceFillingCurve::recurce, getXYZBucket"]}
{"id": "C07", "title": "sizesToOffsets is an exclusive prefix sum", "statement": "After converting sizes to offsets every entry is the sum of the preceding original sizes plus the starting offset and the returned value is the sum of everything.", "quantifier": "every vector of sizes and every starting offset", "why_tests_cant": "all lengths and all contents", "anchors": ["src/basis/utilities/utils.hpp: utils::sizesToOffsets"]}
{"id": "C08", "title": "Duplicate removal keeps the set, strictly sorted", "statement": "sortAndRemoveDuplicates returns a strictly increasing vector with the same set of values; removeDuplicates keeps one representative of every run and, from a given start, leaves the prefix intact.", "quantifier": "every vector and every start position", "why_tests_cant": "all contents, including empty and all-equal ones", "anchors": ["src/basis/utilities/utils.hpp: utils::removeDuplicates, sortAndRemoveDuplicates"]}
{"id": "C09", "title": "In-place merge of thread-local sorted parts is a full sort", "statement": "Merging any number of sorted consecutive segments described by a distribution gives a sorted vector that is a permutation of the input.", "quantifier": "every number of segments (not only powers of two), every distribution including empty segments, every content", "why_tests_cant": "thread count and segment sizes are unbounded", "anchors": ["src/basis/utilities/utils.hpp: utils::inplaceMerge, sortWithInplaceMerge, sortWithUniqueMerge, mergeAppendedData"]}
{"id": "C10", "title": "Thread-local distributions become one global distribution", "statement": "threadDistributionToFullDistribution turns per-thread boundary lists into globally increasing boundaries: every thread list is shifted by the number of elements of all previous threads.", "quantifier": "every number of threads, every content", "why_tests_cant": "all thread counts and contents", "anchors": ["src/basis/utilities/utils.hpp: utils::threadDistributionToFullDistribution"]}
{"id": "C11", "title": "Rounding helpers", "statement": "round_up(x,a) is the least multiple of a not below x, round_down the greatest not above, divide_round_up the ceiling; for every representable positive argument whose result is representable.", "quantifier": "every unsigned argument and alignment, modulo 2^64 arithmetic", "why_tests_cant": "the whole 64-bit range", "anchors": ["src/basis/utilities/utils.h: utils::round_up, round_down, divide_round_up"]}
{"id": "C12", "title": "Binary packing round trip", "statement": "Packing any sequence of scalars, strings, vectors and vectors of strings and unpacking them in the same order returns the same values, leaves the cursor right behind the message and the number of bytes written is exactly packedSize.", "quantifier": "every sequence of values, every follow-up data in the buffer", "why_tests_cant": "arbitrary lengths and nesting", "anchors": ["src/basis/utilities/packing.h: utils::packedSize, pack, unpack"]}
{"id": "C13", "title": "Threaded array pack/unpack round trip", "statement": "Unpacking a packed threaded array (built without an alignment request) yields the same size, the same thread distribution and the same elements; packedSize is the exact message length and nothing outside of the message is written.", "quantifier": "every distribution and content, every element type with a fixed-size representation, every position in every buffer, every previous content of the target", "why_tests_cant": "unbounded sizes and contents; aligned arrays break it and only for particular addresses", "anchors": ["src/basis/containers/tarray.hpp: tarray::packedSize, pack, unpack"]}
{"id": "C14", "title": "Serialized records pack/unpack round trip", "statement": "Unpacking a packed serializededata object yields the same records in the same order, for both the fixed-size and the variable-size layout, and null containers round-trip as null.", "quantifier": "every record layout and every distribution", "why_tests_cant": "all layouts and sizes", "anchors": ["src/basis/containers/serializededata.h: serializededata::packedSize, pack, unpack"]}
{"id": "C15", "title": "Thread distribution covers the data and is balanced", "statement": "Distributing size elements to t threads gives boundaries 0=b0<=b1<=...<=bt=size with every part at most one chunk ceil(size/t) long.", "quantifier": "every size and every positive number of threads", "why_tests_cant": "unbounded sizes and threads", "anchors": ["src/basis/containers/tarray.hpp: tarray::distribute"]}
{"id": "C16", "title": "Rebalancing keeps all records in order", "statement": "serializededata::balance moves data between threads so that every thread holds exactly the requested number of records while the concatenation over threads is unchanged.", "quantifier": "every thread-local content and every consistent target distribution, fixed and variable record size", "why_tests_cant": "all splits, including empty threads", "anchors": ["src/basis/containers/serializededata.h: serializededata::balance"]}
{"id": "C17", "title": "Record iteration enumerates each record exactly once", "statement": "Iterating over all threads enumerates record i as the slice between its boundaries, every record exactly once, in order, for every thread distribution.", "quantifier": "every boundary list and every thread distribution", "why_tests_cant": "all layouts, threads with no records", "anchors": ["src/basis/containers/serializededata.h: iterator, begin, cbegin, cend, inititerators"]}
{"id": "C18", "title": "Permuting records", "statement": "After permute(permutation) record i is the old record permutation[i], whatever the target thread distribution, and no record is split or lost.", "quantifier": "every content, every permutation, every distribution", "why_tests_cant": "all permutations", "anchors": ["src/basis/containers/serializededata.h: serializededata::permute"]}
{"id": "C19", "title": "Arena allocator: no overlap, aligned, in bounds", "statement": "In every history of allocate, deallocate and reset calls all blocks handed out since the last reset are pairwise disjoint, aligned and inside the arena; if clients only give back pointers they hold, the blocks they hold are disjoint over resets as well, and a reset succeeds exactly when nothing is held.", "quantifier": "every memory, capacity, alignment and call history with sizes below 2^63", "why_tests_cant": "histories are unbounded", "anchors": ["src/basis/utilities/arena_allocator.cpp: arena_allocator_resource"]}
{"id": "C20", "title": "Arena allocator: reported free size", "statement": "After any history either get_free_size is at most the capacity, the memory above is unused and exactly the requests of at most that size succeed, or (the arena is full up to alignment) get_free_size exceeds the capacity and every request is refused.", "quantifier": "every capacity, alignment, call history and request size below 2^63", "why_tests_cant": "needs an adversarial history", "anchors": ["src/basis/utilities/arena_allocator.cpp: get_free_size"]}
{"id": "C21", "title": "Circular buffer allocator: granted blocks never overlap", "statement": "Under every interleaving of threads all blocks granted and not yet returned are pairwise disjoint (also modulo the wrap-around), aligned and inside the pool, and returning a held pointer never fails and frees exactly the block granted with that pointer.", "quantifier": "every interleaving of any number of threads, every sequence of request sizes and power-of-two alignments, every pool size, until the 64-bit position wraps", "why_tests_cant": "schedules cannot be enumerated by tests", "anchors": ["src/basis/utilities/cbmb_allocator.cpp: cbmba_resource"]}
{"id": "C22", "title": "Circular buffer allocator: requests are granted when everything is returned", "statement": "If all granted blocks have been returned then the oldest waiting request is grantable; requests become grantable in the order they were made, a new request overtakes waiting ones only if those are grantable too, a grantable request stays grantable and has a notification pending; so threads that return their blocks never wait forever.", "quantifier": "every reachable state of every interleaving, pool size a power of two", "why_tests_cant": "liveness over all schedules", "anchors": ["src/basis/utilities/cbmb_allocator.cpp: allocate, deallocate, do_transaction"]}
{"id": "C23", "title": "Space partitioning trees only permute the points and their leaves partition them", "statement": "Building the k-d tree and the interval tree permutes the indices; the leaf ranges are consecutive, disjoint and cover all points.", "quantifier": "every point set (also with duplicates), every bucket size, every behaviour of nth_element allowed by its contract", "why_tests_cant": "all point sets", "anchors": ["src/basis/structures/kdtree.cpp: KDTree::build", "src/basis/structures/intervaltree.cpp: IntervalTree::build"]}
{"id": "C24", "title": "Interval tree search finds every overlapping box", "statement": "Traversing the tree with a query box reports every stored interval whose box strictly overlaps the query.", "quantifier": "every set of boxes and every query", "why_tests_cant": "all geometric configurations", "anchors": ["src/basis/structures/intervaltree.cpp: IntervalTree::traverse"]}
{"id": "C25", "title": "All-reduce gives every rank the same total", "statement": "For every number of ranks (not only powers of two) every rank ends the recursive-halving all-reduce with the combination of all contributions.", "quantifier": "every communicator size, every contribution, every associative and commutative operation", "why_tests_cant": "process count is unbounded; odd splits occur only for particular sizes", "anchors": ["src/wrappers/mpi/communication.hpp: Communication::allReduce", "src/wrappers/mpi/communication.h: RecursiveHalving"]}
{"id": "C26", "title": "All-gather concatenates in rank order", "statement": "After the unknown-size all-gather every rank holds the concatenation of all contributions in rank order.", "quantifier": "every communicator size and contributions of any (also zero) length", "why_tests_cant": "process count and message sizes unbounded", "anchors": ["src/wrappers/mpi/communication.hpp: allGatherUnknownSize, allGatherInplace"]}
{"id": "C27", "title": "Targeted all-to-all delivers exactly the addressed messages", "statement": "After allToAllWithDataSizeAndTarget each rank holds exactly the messages addressed to it, each once and unmodified.", "quantifier": "every communicator size, every multiset of messages", "why_tests_cant": "routing through log steps for all sizes", "anchors": ["src/wrappers/mpi/communication.hpp: allToAllWithDataSizeAndTarget"]}
{"id": "C28", "title": "Exclusive scan and global distribution", "statement": "exscan gives every rank the sum of the values of the lower ranks and returns the global sum on every rank; getDistribution returns consistent boundaries.", "quantifier": "every number of ranks, every value", "why_tests_cant": "all rank counts", "anchors": ["src/wrappers/mpi/communication.cpp: Communication::exscan", "src/wrappers/mpi/communication.hpp: getDistribution"]}
{"id": "C29", "title": "Neighbour exchange is independent of message arrival order", "statement": "exchangeUnknownSize and exchangeKnownSize store in the buffer of neighbour i exactly the data sent by neighbour i, whatever order messages arrive in.", "quantifier": "every neighbour graph, every arrival order", "why_tests_cant": "arrival order is chosen by the network", "anchors": ["src/wrappers/mpi/communication.hpp: exchangeUnknownSize, exchangeKnownSize"]}
{"id": "C30", "title": "Messages to various targets", "statement": "sendVariousTargets delivers every message to its target provided each rank sends at most one message to each target, with received buffers ordered by source rank.", "quantifier": "every set of messages, every arrival order", "why_tests_cant": "arrival order and message pattern unbounded", "anchors": ["src/wrappers/mpi/communication.hpp: sendVariousTargets"]}
{"id": "C31", "title": "Shift communication cannot deadlock", "statement": "receiveLower and receiveUpper complete on every number of ranks even if sends are fully synchronous, and each rank obtains its neighbour's buffer.", "quantifier": "every number of ranks, every schedule, every send buffering mode", "why_tests_cant": "deadlock depends on MPI buffering", "anchors": ["src/wrappers/mpi/communication.hpp: receiveLower, receiveUpper"]}
{"id": "C32", "title": "Recursive halving schedule cannot deadlock", "statement": "The point-to-point pattern of the recursive-halving collectives terminates in every schedule with rendezvous or buffered sends and has a unique result.", "quantifier": "every number of ranks, every schedule", "why_tests_cant": "schedules and process counts unbounded", "anchors": ["src/wrappers/mpi/communication.h: RecursiveHalving", "src/wrappers/mpi/communication.hpp: allReduce, allGatherUnknownSize, allToAllWithDataSizeAndTarget"]}
{"id": "C33", "title": "Global balancing of distributed data", "statement": "Communication::balance re-splits the data so that rank r holds exactly the elements of the requested global interval, keeping the global order.", "quantifier": "every number of ranks, every current and target distribution with the same total", "why_tests_cant": "all distributions", "anchors": ["src/wrappers/mpi/communication.hpp: balance"]}
{"id": "C34", "title": "Gather with unknown sizes", "statement": "gatherUnknownSize delivers to the root the rank-ordered concatenation with the right offsets; scatterv delivers to every rank its own slice.", "quantifier": "every number of ranks and sizes", "why_tests_cant": "unbounded", "anchors": ["src/wrappers/mpi/communication.hpp: gatherUnknownSize, scatterv"]}
{"id": "C35", "title": "Splitting and joining text", "statement": "Splitting a line by a set of separator characters yields exactly the pieces between the separators (between maximal runs of separators when they are merged); no piece contains a separator. Joining the pieces by the separator gives the line back, except that one separator at the very end is lost; consequently splitting a joined list gives the list back unless its last piece is empty.", "quantifier": "every line, every separator set, merged or not", "why_tests_cant": "all strings", "anchors": ["src/basis/utilities/parser.cpp: Parser::split, join"]}
{"id": "C36", "title": "Stripping text", "statement": "strip removes exactly the surrounding white space and then everything from the first '#'; the text between is kept. Blanks before the '#' stay, therefore strip is idempotent for lines without '#' and reaches a fixed point after two applications for every line. removecomments cuts at the first tag, uppercase converts character by character.", "quantifier": "every line", "why_tests_cant": "all strings", "anchors": ["src/basis/utilities/parser.cpp: Parser::strip, removecomments, uppercase"]}
{"id": "C37", "title": "Case-insensitive comparison", "statement": "Case-insensitive equality is an equivalence relation, the case-insensitive order is a strict weak order whose incomparability is that equivalence and which is decided by the first different letter; the prefix, suffix and contains tests hold iff the text starts with, ends with, contains the pattern up to case. The case-sensitive versions hold for exact matches, where the case-sensitive prefix test is defined only for texts that are not a proper prefix of the pattern.", "quantifier": "all strings and every tolower function", "why_tests_cant": "all strings", "anchors": ["src/basis/utilities/parser.h: StringCompare"]}
{"id": "C38", "title": "Tokenizing any configuration file terminates", "statement": "For every file content the tokenizer delivers finitely many tokens and then END forever (or reports an error, or reads behind the file); it consumes at least one character per token. A file without comments, links, quotes and environment variables that does not end by a blank is always tokenized without reading outside of the file.", "quantifier": "every byte sequence", "why_tests_cant": "all files", "anchors": ["src/config/reader/tokenizer.cpp: Tokenizer::next"]}
{"id": "C39", "title": "Comments and layout do not change the tokens", "statement": "A file made of words, quoted texts, links and special characters separated by white space, line ends and comments is tokenized to exactly these items; replacing the white space and comments by others leaves the sequence of value tokens unchanged, as long as words are separated by more than a multi-line comment.", "quantifier": "every sequence of items and every two layouts of it", "why_tests_cant": "all layouts", "anchors": ["src/config/reader/tokenizer.cpp: Tokenizer::next"]}
{"id": "C40", "title": "Enumeration parameters", "statement": "Setting an option parameter accepts exactly the names of its options (up to case and surrounding blanks) and the texts that parse as a number; a name sets the first option with this name and a refused text keeps the old value. A printed option is read back. A flag parameter accepts exactly the '|'-separated lists of option names without repetition and its value has exactly the bits of the named options; a non-empty set of flags is printed as the names in the order of options and read back.", "quantifier": "every option list, every input text, every number parser and tolower function", "why_tests_cant": "all option sets and texts", "anchors": ["src/config/holders/valueholder.h: ECFEnumHolder"]}
{"id": "C41", "title": "Stored configuration is read back", "statement": "Reading the text written by store into a configuration of the same structure (map entries may be missing, they are created from the pattern) restores every stored value of every nested parameter and keeps the parameters that were not stored, whenever names are words, sibling names differ up to case and every holder accepts its own printed value; values made of words separated by single blanks are read as they are. A file that is accepted closes exactly the objects it opens. An assignment without a semicolon followed by a line that starts with the name of a parameter is refused.", "quantifier": "every configuration tree, every holder behaviour, all nesting depths, stored completely or only allowed parameters", "why_tests_cant": "all trees", "anchors": ["src/config/reader/reader.cpp: ECFReader::read, store", "src/config/reader/tokenizer.cpp", "src/config/configuration.cpp: ECFObject::_getNamedParameter", "src/config/holders/objectholder.h"]}
{"id": "C42", "title": "Sparse order conversion keeps the matrix", "statement": "Converting between row-compressed and column-compressed storage keeps every stored entry at its position with its value, keeps nnz and produces ascending indices in every row/column.", "quantifier": "every valid sparse matrix", "why_tests_cant": "all sizes and patterns", "anchors": ["src/math/operations/convert_csx_csy.cpp: convert_csx_csy::perform"]}
{"id": "C43", "title": "Sparse order conversion is an involution", "statement": "Converting a matrix with ascending indices to the other order and back gives bit-for-bit the same pointer, index and value arrays.", "quantifier": "every valid sorted sparse matrix", "why_tests_cant": "all sizes and patterns", "anchors": ["src/math/operations/convert_csx_csy.cpp"]}
{"id": "C44", "title": "Sparse permutation", "statement": "Permuting rows and/or columns places entry (i,j) of the source at (src_to_dst(i),src_to_dst(j)) and nothing else, with ascending indices.", "quantifier": "every sparse matrix and every pair of permutations", "why_tests_cant": "all permutations", "anchors": ["src/math/operations/permute_csx_csx.cpp: perform_primary, perform_secdary, perform_both"]}
{"id": "C45", "title": "Sub-matrix, quadrisection and concatenation", "statement": "A sub-matrix holds exactly the entries of its index window, shifted; quadrisecting a matrix at any cut and concatenating the four parts restores the matrix.", "quantifier": "every sorted sparse matrix, every window and every cut, same and different storage order", "why_tests_cant": "all windows", "anchors": ["src/math/operations/submatrix_csx_csy.cpp", "src/math/operations/quadrisect_csx_csy.cpp", "src/math/operations/concat_csx.cpp"]}
{"id": "C46", "title": "Transposition with a value map", "statement": "transpose_csx_csx_map produces the transposed pattern and after any later change of source values perform_values transports every value to its transposed position.", "quantifier": "every sparse matrix, every history of value changes", "why_tests_cant": "all patterns and histories", "anchors": ["src/math/operations/transpose_csx_csx_map.cpp"]}
{"id": "C47", "title": "Symmetric completion", "statement": "Completing an upper or lower triangular stored square matrix whose last row or column is not empty gives exactly the stored entries and their mirror images (conjugated if asked for and the storage orders agree) with correct pointers and ascending indices, for every later change of the source values; the reported size of the result is the number of these entries. (If the last line is empty its pointers are never written, and with different orders the wrong triangle is conjugated: both are refuted by a witness.)", "quantifier": "every triangular sparse matrix with a used last line, every history of value changes, every behaviour of std::sort allowed by its contract", "why_tests_cant": "all patterns, including empty rows", "anchors": ["src/math/operations/complete_csx_csy_map.cpp"]}
{"id": "C48", "title": "Sorting permutation", "statement": "The computed permutation and its inverse are mutually inverse permutations and applying it sorts the vector.", "quantifier": "every vector, every behaviour of std::sort allowed by its contract", "why_tests_cant": "all contents", "anchors": ["src/math/operations/sorting_permutation.cpp", "src/math/primitives_new/permutation_view_new.h: PermutationView_new::invert"]}
{"id": "C49", "title": "Pruning subset", "statement": "The pruning subset lists exactly the non-empty rows/columns in ascending order and the reported pruned sizes match.", "quantifier": "every sparse matrix and pruning mode", "why_tests_cant": "all patterns", "anchors": ["src/math/operations/pruning_subset_csx.cpp"]}
{"id": "C50", "title": "Pivots and trails with completion", "statement": "Pivots (trails) of the rows or of the columns are the first (last) stored position, and the number of positions for an empty row or column, whatever the storage order. The forward completion is the running maximum of the found positions, the backward completion the running minimum from the end; both are non-decreasing vectors of existing positions if there is at least one position.", "quantifier": "every sparse matrix with ascending indices in the stored direction (any order of indices if the other direction is asked for)", "why_tests_cant": "all patterns", "anchors": ["src/math/operations/pivots_trails_csx.cpp"]}
{"id": "C51", "title": "Symmetric permutation of matrices in the kernel computation", "statement": "Permuting a sparse symmetric matrix (upper triangle, every diagonal entry stored) with a permutation vector p gives the valid sparse matrix B with B(p(i),p(j)) = A(i,j) for all i, j, rows sorted by column; a matrix with a missing diagonal entry can leave stale row pointers. The dense version gathers instead: B(i,j) = A(p(i),p(j)). In the kernel computation the shuffled rows come last in the sparse version; the dense version, called with the same vector, orders the matrix differently.", "quantifier": "every sparse symmetric matrix stored as upper triangle, every dense matrix and every permutation", "why_tests_cant": "all permutations", "anchors": ["src/math/math.cpp: _permute(Matrix_CSR), _permute(Matrix_Dense), _getKernel"]}
{"id": "C52", "title": "Sub-matrix extraction", "statement": "submatrix(CSR->dense) stores exactly the window of the represented (general, symmetric or Hermitian) matrix, transposed and conjugated as requested, row by row in full or upper-triangular packed storage and inside the allocated array, whenever the window is a diagonal block or lies in the stored part. A lower triangle kept as lower triangle is written outside of its array; a window on the other side of the diagonal is returned empty. submatrix(CSR->CSR) gives the valid sparse matrix with exactly the entries of the window, shifted and conjugated.", "quantifier": "every valid sorted sparse matrix, window, shape, symmetry, transposition and conjugation flag", "why_tests_cant": "all windows and shapes", "anchors": ["src/math/wrappers/math.spblas.hpp: submatrix, denseMatCalcIndexRowMajor"]}
{"id": "C53", "title": "Regularization of a singular matrix", "statement": "The null pivots of a kernel basis with n rows and m >= n columns are n different column numbers in ascending order, whatever the arithmetic does; in exact arithmetic, for linearly independent rows, a combination of the rows that vanishes in all pivots is zero. The regularization matrix is a valid sparse matrix with exactly one entry rho at (p,p) for every pivot p and rho is the greatest diagonal element. Hence for a symmetric positive semidefinite matrix K (upper triangle, diagonal stored, not all diagonal elements zero) and a basis of its kernel, K plus the regularization matrix is non-singular.", "quantifier": "every sparse symmetric matrix, every kernel basis, every previous content of the arrays", "why_tests_cant": "all matrices, kernels and pivot sets", "anchors": ["src/math/math.cpp: _getRegMat, _getNullPivots"]}
{"id": "C54", "title": "Exhaustive parameter search is exhaustive", "statement": "For parameters with integer ranges below the largest int (options, flags, logical values) the all-permutations search proposes every combination of values exactly once before it repeats, whatever results are reported; for integer parameters it has undefined behaviour when the largest int is reached.", "quantifier": "every number of parameters, all ranges, every sequence of reported values", "why_tests_cant": "all ranges", "anchors": ["src/autoopt/evolution.cpp: AllPermutationsAlgorithm", "src/autoopt/proxy.cpp: getParameterMin, getParameterMax"]}
{"id": "C55", "title": "Best-so-far is really the best", "statement": "After any history of proposed and evaluated specimens PSO and DE hold as best an evaluated specimen whose value is the minimum of all reported values; SOMA does so in the first population and whenever the journeys of an individual are complete. No history has undefined behaviour (without immediate rounding).", "quantifier": "every population, every sequence of reported values, every random choice, every arithmetic with a strict weak order", "why_tests_cant": "histories are unbounded and random", "anchors": ["src/autoopt/evolution.cpp: PSOAlgorithm, DEAlgorithm, SOMAAlgorithm"]}
{"id": "C56", "title": "MPRGP iterates stay feasible", "statement": "Starting from a feasible point every iterate of the bound-constrained solver satisfies lb<=x<=ub, the maintained gradient equals H x - b, and no quotient by zero is computed when the stopping test accepts a zero gradient.", "quantifier": "every symmetric positive definite operator, positive definite preconditioner, bounds, right-hand side, step length and number of iterations (exact arithmetic)", "why_tests_cant": "all problems and iteration counts", "anchors": ["src/feti/iterativesolver/mprgp.cpp: MPRGP::run"]}
{"id": "C57", "title": "PCPG keeps residual and constraints", "statement": "At every iteration of the conjugate projected gradient solvers the maintained residual is d - F x and the iterate satisfies its constraints: G x = e, or G F x = G d for the conjugate projector (for the orthogonalized variant this holds for the orthogonal projector only; with the conjugate one it keeps G F x = e, a defect). The number the solver tests is never negative and zero exactly when the iterate is the solution (symmetric positive definite problems).", "quantifier": "every linear operator, preconditioner, projector, division (defined or not), state left by earlier calls and number of iterations (exact arithmetic)", "why_tests_cant": "all problems", "anchors": ["src/feti/iterativesolver/pcpg.cpp: PCPG::solve", "src/feti/iterativesolver/orthopcpg.cpp", "src/feti/projector/projector.cpp: apply, applyT, apply_GtintGGt, apply_GtintGGtG"]}
{"id": "C58", "title": "Iteration limits and status are truthful", "statement": "With a positive iteration limit the solvers stop after at most that many iterations. Before the first pass PCPG stops exactly if the criterion is absolute and the initial norm is below the precision. If PCPG stops without an error, the stopping criterion was met by the norm tested in the last pass, which is the norm of the iterate before that pass; the status after every pass is a function of the whole sequence of norms (not-a-number, stagnation, criterion, limit, in this order). MPRGP reports success exactly when it stopped before the limit; a criterion met at the limit is reported as an error (defect), a zero stagnation period is undefined behaviour (defect), and the ARIOLI criterion is never met (defect).", "quantifier": "every sequence of residual norms, every arithmetic and every configuration", "why_tests_cant": "all sequences", "anchors": ["src/feti/iterativesolver/iterativesolver.cpp: setInfo, updateInfo", "src/feti/iterativesolver/pcpg.cpp: PCPG::solve", "src/feti/iterativesolver/orthopcpg.cpp", "src/feti/iterativesolver/mprgp.cpp: MPRGP::solve"]}
{"id": "C59", "title": "Dual vector synchronization is consistent", "statement": "Whatever the order of arrivals, synchronize ends on all ranks; every rank's value of a Lagrange multiplier becomes its own value plus the values of the other ranks that keep a copy, added in rank order, and unshared entries are unchanged. With an associative and commutative addition all copies are equal to the sum over all sharing ranks; with a merely commutative addition (doubles) this holds if at most two ranks share a multiplier (with three it is refuted). The communication buffers have the sizes computed by Dual_Map::set and no access is out of range.", "quantifier": "every number of ranks, every distribution of domains to ranks, every list of multipliers with their domains, every block encoding of it, every vector, every arrival order", "why_tests_cant": "all decompositions and interleavings", "anchors": ["src/feti/common/vector_dual.cpp: Vector_Dual::synchronize", "src/feti/common/dual_map.cpp: Dual_Map::set", "src/analysis/pattern/decomposition.feti.h: ismy, noffset"]}
{"id": "C60", "title": "Local intervals count every multiplier once", "statement": "The local intervals of all ranks together contain every multiplier exactly once. Hence the dot product of dual vectors counts every shared multiplier exactly once over all ranks, whatever the order of the global reduction; copyToWithoutHalo keeps exactly the own multipliers, and a following synchronize restores the vector on all ranks.", "quantifier": "every decomposition, every list of multipliers in any number of groups (equalities, inequalities)", "why_tests_cant": "all decompositions", "anchors": ["src/feti/common/vector_dual.cpp: Vector_Dual::dot, Vector_Dual::copyToWithoutHalo", "src/feti/common/dual_map.cpp: Dual_Map::set"]}
{"id": "C61", "title": "utils::permute gathers blocks", "statement": "After permuting a vector of n blocks of a fixed size with a permutation vector whose entries are below n, block i of the result is the block permutation[i] of the original; nothing is read or written out of bounds.", "quantifier": "every block size, every number of blocks, every permutation vector", "why_tests_cant": "all lengths, block sizes and permutations", "anchors": ["src/basis/utilities/utils.hpp: utils::permute"]}
{"id": "C62", "title": "Integer power", "statement": "my_int_pow(b,e) terminates and equals b multiplied e times by itself for every non-negative exponent (as long as the result is representable).", "quantifier": "every base and every exponent >= 0", "why_tests_cant": "unbounded exponents", "anchors": ["src/basis/utilities/utils.h: utils::my_int_pow"]}
{"id": "C63", "title": "Contents of threaded arrays", "statement": "An array constructed from a vector, from thread-local vectors, from an initial value (optionally duplicated) or from another array holds exactly the given elements in order and the given distribution, whatever order the threads run in and whatever address the allocator returns.", "quantifier": "every content, distribution, alignment shift and thread schedule", "why_tests_cant": "schedules and allocator addresses", "anchors": ["src/basis/containers/tarray.hpp: tarray::tarray"]}
{"id": "C64", "title": "AllocatorArena_new: disjoint blocks and exact remaining capacity", "statement": "Blocks handed out since the last clear are disjoint, aligned and inside the buffer; if the alignment divides the capacity then get_remaining_capacity is exact: the memory above is unused and exactly the requests up to that size succeed.", "quantifier": "every buffer, capacity, alignment and call history with sizes below 2^63", "why_tests_cant": "histories are unbounded", "anchors": ["src/math/primitives_new/allocator_new.h: AllocatorArena_new"]}
{"id": "C65", "title": "Circular buffer allocator: transactions", "statement": "A transaction begun while nothing is held or awaited never blocks: each of its requests is served at once or reported as an error, whatever other threads do meanwhile.", "quantifier": "every reachable idle state, every sequence of events during the transaction, pool size a power of two", "why_tests_cant": "all interleavings", "anchors": ["src/basis/utilities/cbmb_allocator.cpp: do_transaction, allocate"]}
{"id": "C66", "title": "The lower corner of a k-d tree leaf bounds its points", "statement": "The corner reported for a leaf of the k-d tree is, in every dimension, at least the minimum of the whole point set and at most the coordinate of every point stored in the leaf.", "quantifier": "every point set, bucket size, sequence of split dimensions, schedule and admissible nth_element/sort; every leaf and every point in it", "why_tests_cant": "all point sets and all tie-breaking behaviours", "anchors": ["src/basis/structures/kdtree.h: KDTree::boxMin", "src/basis/structures/kdtree.cpp: KDTree::build"]}
{"id": "C67", "title": "The representative of a k-d tree bucket is one of its points", "statement": "For every non-empty recorded bucket the midpoint query returns the index of a point of that bucket. (For an empty bucket it returns -1: refuted without the assumption.)", "quantifier": "every point set, bucket size, schedule, admissible nth_element/sort and every distance comparison", "why_tests_cant": "all point sets and all roundings of the distances", "anchors": ["src/basis/structures/kdtree.h: KDTree::getMidPoint, KDTree::getNLeaves"]}
{"id": "C68", "title": "In-place all-gather fills the whole array", "statement": "After allGatherInplace, called with the own part of the array filled and consecutive parts in rank order, every rank holds all parts at their positions and the rest of its array is unchanged.", "quantifier": "every number of ranks, every partition (empty parts allowed), every schedule", "why_tests_cant": "Sizes, rank counts and message schedules are unbounded; a test runs one schedule of a few ranks.", "anchors": ["src/wrappers/mpi/communication.hpp: Communication::allGatherInplace"]}
{"id": "C69", "title": "Unique all-gather is the set union", "statement": "After uniqueAllGatherUnknownSize of strictly sorted contributions every rank holds the same strictly sorted list, whose elements are exactly the elements of the contributions.", "quantifier": "every number of ranks, every sorted contribution, every schedule", "why_tests_cant": "Rank counts, contents and schedules are unbounded.", "anchors": ["src/wrappers/mpi/communication.hpp: Communication::uniqueAllGatherUnknownSize"]}
{"id": "C70", "title": "All-to-all with given sizes", "statement": "After allToAllV with matching sizes each rank holds the concatenation, in rank order, of the parts that the ranks have addressed to it.", "quantifier": "every number of ranks, all sizes including zero, all data within the size limit", "why_tests_cant": "Rank counts and sizes are unbounded.", "anchors": ["src/wrappers/mpi/communication.hpp: Communication::allToAllV"]}
{"id": "C71", "title": "One-directional neighbour exchange", "statement": "receiveLower/UpperKnownSize and receiveLower/UpperUnknownSize store in the buffer of each lower (upper) neighbour exactly the data it has sent and keep the other buffers unchanged, whatever order messages arrive in, and always complete.", "quantifier": "every neighbour graph, every arrival order, every buffering of sends", "why_tests_cant": "Arrival orders and graphs are unbounded; tests see one schedule.", "anchors": ["src/wrappers/mpi/communication.hpp: Communication::receiveLowerKnownSize, receiveUpperKnownSize, receiveLowerUnknownSize, receiveUpperUnknownSize"]}
{"id": "C72", "title": "In-place and uniform neighbour exchange", "statement": "exchangeKnownSizeInPlace replaces the part of each neighbour by the part that the neighbour has sent and changes nothing else; gatherUniformNeighbors stores the equally long data of the neighbours one after another in the order of neighbours.", "quantifier": "every neighbour graph, all boundaries, every arrival order", "why_tests_cant": "Arrival orders and sizes are unbounded.", "anchors": ["src/wrappers/mpi/communication.hpp: Communication::exchangeKnownSizeInPlace, gatherUniformNeighbors"]}
{"id": "C73", "title": "Order conversion with a value map", "statement": "convert_csx_csy_map converts the pattern between row and column storage and after any later change of the source values perform_values brings every value to its position.", "quantifier": "every valid sparse matrix, both orders, every history of value changes", "why_tests_cant": "all patterns and histories", "anchors": ["src/math/operations/convert_csx_csy_map.cpp"]}
{"id": "C74", "title": "Sub-matrix with a value map", "statement": "submatrix_csx_csy_map selects the pattern of a window, shifted, in the same or the other order, and after any later change of the source values perform_values brings exactly the values of the window to their positions.", "quantifier": "every sorted sparse matrix, every window, every history of value changes", "why_tests_cant": "all windows, patterns and histories", "anchors": ["src/math/operations/submatrix_csx_csy_map.cpp"]}
{"id": "C75", "title": "Permutation with a value map", "statement": "permute_csx_csx_map moves every entry to its permuted position; if only one triangle is stored, an entry that leaves the triangle is stored as its mirror image, so the result stays in the triangle. Indices are ascending and the values follow every later change of the source values.", "quantifier": "every sparse matrix (full or triangular), every pair of permutations, every history of value changes, every behaviour of std::sort allowed by its contract", "why_tests_cant": "all patterns and permutations", "anchors": ["src/math/operations/permute_csx_csx_map.cpp"]}
{"id": "C76", "title": "Pruned sparse matrix", "statement": "prune_csx_matx with a sparse destination removes exactly the rows and/or columns that store no entry: the entries of the result, renumbered through the lists of kept rows and columns, are the entries of the source in the same storage order. Ascending indices stay ascending and the lists of kept rows and columns are handed out.", "quantifier": "every sparse matrix in both orders, every pruning mode", "why_tests_cant": "all patterns", "anchors": ["src/math/operations/prune_csx_matx.cpp", "src/math/operations/pruning_subset_csx.cpp"]}
{"id": "C77", "title": "Dense fill, copy, transpose, complete, reorder", "statement": "fill_dnx, copy_dnx, transpose_dnx_dnx (also in place), complete_dnx_dnx and convert_dnx_dny write exactly the declared elements of the destination (only the stored triangle where a triangle is stored) with the intended values, and leave every other cell of the array, including padding behind the leading dimension, unchanged. copy_dnx refuses inputs of different size, order or triangle.", "quantifier": "every size, leading dimension, order, triangle, array contents; real and complex values; every behaviour of the external transposition allowed by its contract", "why_tests_cant": "all sizes, leading dimensions and padding contents", "anchors": ["src/math/operations/fill_dnx.cpp", "src/math/operations/copy_dnx.cpp", "src/math/operations/transpose_dnx_dnx.cpp", "src/math/operations/complete_dnx_dnx.cpp", "src/math/operations/convert_dnx_dny.cpp"]}
{"id": "C78", "title": "Dense permutation", "statement": "permute_dnx_dnx moves element (perm_rows(i), perm_cols(j)) of the (possibly symmetric, one-triangle) source matrix to (i, j) of the destination, out of place and in place, and touches nothing else; it refuses inputs of different size, order or triangle and permutations of a wrong size.", "quantifier": "every matrix, every optional pair of permutations, both orders, all triangles", "why_tests_cant": "all permutations and sizes", "anchors": ["src/math/operations/permute_dnx_dnx.cpp"]}
{"id": "C79", "title": "Dense conversion and views", "statement": "convert_dnx keeps the represented matrix for every combination of order and stored triangle of a symmetric or Hermitian matrix and for general matrices, except that a complex Hermitian matrix converted from a triangle to a full matrix of the other order receives index values instead of matrix values. The transposed view and the sub-matrix view show the elements of the original matrix.", "quantifier": "every matrix, order, triangle and symmetry", "why_tests_cant": "all combinations and sizes", "anchors": ["src/math/operations/convert_dnx.cpp", "src/math/primitives_new/matrix_dense_view_new.h"]}
{"id": "C80", "title": "Sparse to dense", "statement": "convert_csx_dny and submatrix_csx_dny produce the dense matrix (of the window) that holds the stored value at every stored position and zero elsewhere, for all four combinations of storage orders, without touching other cells; prune_csx_matx with a dense destination does the same for the kept rows and columns if at least one direction is pruned. With neither direction pruned it writes only zeros.", "quantifier": "every valid sparse matrix (the window needs ascending indices), every dense destination with any leading dimension and old contents, every window, every choice of pruned directions", "why_tests_cant": "all patterns, sizes, orders and old contents", "anchors": ["src/math/operations/convert_csx_dny.cpp", "src/math/operations/submatrix_csx_dny.cpp", "src/math/operations/prune_csx_matx.cpp"]}
{"id": "C81", "title": "Gather and spread dense sub-matrices", "statement": "submatrix_dnx_dnx_noncontig puts element (rows[i], cols[j]) of the source at (i, j); supermatrix_dnx_dnx_noncontig assigns or adds element (i, j) of the source to (rows[i], cols[j]) of the destination, adding every contribution if indices repeat. A missing map means identity, nothing else is touched, and wrong sizes or orders are refused.", "quantifier": "every matrix, every optional index map into range, all modes, both orders", "why_tests_cant": "all index maps, including repeated indices", "anchors": ["src/math/operations/submatrix_dnx_dnx_noncontig.cpp", "src/math/operations/supermatrix_dnx_dnx_noncontig.cpp"]}
{"id": "C82", "title": "Linear combinations and sparse matrix-vector product", "statement": "In exact arithmetic lincomb_matrix_dnx computes X = alpha A + beta B and lincomb_dnx_csy X = alpha A + beta B with a sparse B, on the stored part of X only and also if A or B is X itself; gemv_csx computes y = alpha A x + beta y for both storage orders. An operand may be missing if and only if its factor is zero.", "quantifier": "every matrix and vector over a commutative ring, all factors, aliasing of operands with the result", "why_tests_cant": "all sizes, patterns, factors and aliasing", "anchors": ["src/math/operations/lincomb_matrix_dnx.cpp", "src/math/operations/lincomb_dnx_csy.cpp", "src/math/operations/gemv_csx.cpp"]}
{"id": "C83", "title": "Orthonormalization keeps the span", "statement": "orthonormalize turns linearly independent rows into orthonormal rows spanning the same space (exact real arithmetic).", "quantifier": "every matrix with linearly independent rows, every size", "why_tests_cant": "all sizes and bases", "anchors": ["src/math/math.cpp: _orthonormalize"]}
{"id": "C84", "title": "Numbers with commas and lines", "statement": "stringwithcommas prints every number below 10^12 as its decimal digits with a comma before every third digit from the right, without leading zeros; getLine returns the text up to and including the first line end.", "quantifier": "every number below 10^12; every text", "why_tests_cant": "10^12 numbers, all strings", "anchors": ["src/basis/utilities/parser.h: Parser::stringwithcommas, getLine"]}
{"id": "C85", "title": "Logical and vector parameters", "statement": "The printed value of a logical parameter is read back and a logical parameter named without a value becomes true; reading the printed value of a non-empty vector appends exactly its elements.", "quantifier": "every value, every element type with a faithful printing free of commas and blanks", "why_tests_cant": "all vectors", "anchors": ["src/config/holders/valueholder.h: ECFValueHolder<bool>", "src/config/holders/vectorholder.h: ECFVectorHolder"]}
{"id": "C86", "title": "Proposed values are in their ranges", "statement": "If the values of the first population are in their ranges then every specimen ever proposed by PSO, DE and SOMA has all values in the ranges of the parameters, so that setting a proposal never reads outside of the options; generated options and logical values are in their ranges, generated integers may be outside of int.", "quantifier": "every list of parameters with at least one option each, every history and random choice, both rounding modes", "why_tests_cant": "unbounded random histories", "anchors": ["src/autoopt/proxy.cpp: ParameterManager::checkParameter, generateConfiguration, OptimizationProxy::setNextConfiguration", "src/autoopt/evolution.cpp"]}
{"id": "C87", "title": "Forbidden configurations", "statement": "A configuration is refused iff the integer parts of all its values equal those of a recorded forbidden configuration; a failed configuration is however never recorded (refuted): the rank that owns the search ignores it and the other ranks use an uninitialized pointer.", "quantifier": "all lists of recorded configurations and all configurations with values in int", "why_tests_cant": "all lists", "anchors": ["src/autoopt/proxy.cpp: OptimizationProxy::isForbidden, setConfigurationForbidden, ~OptimizationProxy"]}
{"id": "C88", "title": "Leader of the SOMAT3A tournament", "statement": "The leader is the first drawn specimen iff no later drawn specimen is better; otherwise the leader is a dangling pointer (undefined behaviour).", "quantifier": "all populations and all draws", "why_tests_cant": "random draws", "anchors": ["src/autoopt/evolution.cpp: SOMAT3AAlgorithm::evaluateCurrentSpecimen"]}
{"id": "C89", "title": "MPRGP descends to the minimum", "statement": "If the fixed step is at most twice the reciprocal of the largest eigenvalue of the operator, more iterations of the bound-constrained solver never increase the quadratic function, and a result whose projected gradient is zero minimizes the function over all feasible points.", "quantifier": "every symmetric positive definite operator, bounds, right-hand side, feasible start and pair of iteration limits (exact arithmetic)", "why_tests_cant": "all problems and iteration counts", "anchors": ["src/feti/iterativesolver/mprgp.cpp: MPRGP::run, updateReducedGradient, getFeasibleStepLength"]}
{"id": "C90", "title": "PCPG finds the solution in at most n passes", "statement": "For symmetric positive definite problems every pass of PCPG decreases the energy, the used directions are conjugate and the residuals orthogonal, no combination of the used directions has less energy than the iterate, every pass is defined unless the iterate is the solution, and after at most n passes the solver has stopped or its iterate is the solution (the orthogonalized variant: first call, one local interval, orthogonal projector). A run that reaches the solution before it stops divides zero by zero in the next pass (defect).", "quantifier": "every symmetric positive definite dual operator and preconditioner, every constraints and right-hand sides, every size (exact arithmetic)", "why_tests_cant": "all problems and sizes", "anchors": ["src/feti/iterativesolver/pcpg.cpp: PCPG::solve", "src/feti/iterativesolver/orthopcpg.cpp", "src/feti/common/matrix_dual_orthogonal.h"]}
{"id": "C91", "title": "Constraints glue the domains and fix the Dirichlet values", "statement": "Setting the equality constraints ends without undefined behaviour on every rank; all ranks number the constraints they share consistently (the description of shared multipliers is the one the synchronization relies on, multipliers of other owners are in front); the right-hand side is zero for gluing constraints and the prescribed value for fixed copies; B u = c holds on all ranks if and only if all copies of every free degree of freedom are equal and all copies of a fixed one have its prescribed value. Enforcing the boundary conditions sets exactly the own copies of fixed degrees of freedom.", "quantifier": "every number of ranks, domains and degrees of freedom, every distribution of copies, every set of fixed degrees of freedom and values, every sort that meets the standard's contract (the coefficients without rounding)", "why_tests_cant": "all decompositions, multiplicities and rank counts", "anchors": ["src/analysis/linearsystem/constrains/equalityconstrains.cpp: EqualityConstrains::set, update, enforce"]}
{"id": "C92", "title": "Products with the constraint matrix", "statement": "Multiplication by the constraint matrix of the vectors of the own domains followed by the synchronization gives every rank B u of all domains for all multipliers it keeps; multiplication by the transposed matrix gives alpha B^T lambda for every own domain; the two are adjoint on every rank; the rows of B are orthonormal, so B B^T is the identity.", "quantifier": "every mesh, decomposition, vectors, multipliers and subset of domains (exact arithmetic)", "why_tests_cant": "all meshes and vectors", "anchors": ["src/feti/common/applyB.h: applyB, applyBt", "src/analysis/linearsystem/constrains/equalityconstrains.cpp: EqualityConstrains::set"]}
{"id": "C93", "title": "The dual operators compute B K+ B^T", "statement": "Applying the implicit operator to a distributed dual vector and synchronizing gives every rank its elements of F x = B K+ B^T x; with a filter exactly the given domains contribute; the explicit operator can be assembled without undefined behaviour when the columns of every row of B1 increase (they do for the gluing and Dirichlet constraints) and gives the same elements; the dual right-hand side is B K+ f - c; toPrimal gives K+ (f - B^T x); F is symmetric (positive semi-definite) when K+ is.", "quantifier": "every number of ranks, domains and multipliers, every sharing, all sparse rows, all K+ and vectors, every former content of the work arrays (exact arithmetic)", "why_tests_cant": "all decompositions, matrices and vectors", "anchors": ["src/feti/dualoperator/totalfeti.implicit.cpp: TotalFETIImplicit::_apply, apply, update, toPrimal", "src/feti/dualoperator/totalfeti.explicit.cpp: TotalFETIExplicit::update, _apply, apply", "src/feti/common/applyB.h: applyB, applyBt, extractDomain, insertDomains"]}
{"id": "C94", "title": "The projector of the FETI solver is the orthogonal projection, computed on any number of ranks and threads", "statement": "For every decomposition, every set of kernels and every scratch content: Projector::apply returns on every rank its part of x - G^T (G G^T)^-1 G x (with the inverse as one matrix or as two factors; x - G^T (..)^-1 G F x for the conjugate projector), and apply_GtintGGtG, apply_GtintGGt, apply_R, apply_RinvGGtG, apply_invL/U, apply_GtinvU, apply_invLG and the vector e return G^T J G x, G^T J w, R^T w, R^T J G x, the factors and -R f. The rows of a rank are split among threads without gap or overlap. The result y satisfies G y = 0, projecting again changes nothing, the map is symmetric, vectors with G x = 0 are kept, y is the closest such vector, and G^T J w satisfies G lambda = w.", "quantifier": "all numbers of ranks, domains, kernels, threads and multipliers, all matrices B and R, all vectors, all contents of the work arrays, all interleavings of the messages", "why_tests_cant": "A test runs few decompositions and thread counts; the projection must hold for every distribution of domains over ranks, including ranks that share no kernels, empty threads and halo values.", "anchors": ["src/feti/projector/projector.cpp: apply, applyT, apply_GtintGGtG, apply_GtintGGt, apply_R, apply_RinvGGtG, apply_invU, apply_invL, apply_GtinvU, apply_invLG, _apply_G, _apply_invGGt, _apply_Gt, _apply_R", "src/feti/projector/vector_kernel.cpp: Vector_Kernel::set, synchronize", "src/feti/projector/tfeti.orthogonal.symmetric.cpp: update"]}
{"id": "C95", "title": "The reconstructed solution satisfies the original equations exactly up to the projected residual", "statement": "reconstructSolution sets on every rank u = K+(f - B^T lambda) + R^T a. For the residual r = B K+ f - c - F lambda and a = J G r the gap B u - c is exactly the projected residual P r. If G lambda = e, K+ is a generalized inverse and the rows of R are kernels of K, then K u + B^T lambda = f in every domain; with P r = 0 also B u = c. The two sums that FETI::solve reports are the squared norms of K u + B^T lambda - f and f - B^T lambda over all domains; the first is zero exactly if the equations hold.", "quantifier": "all decompositions, matrices, loads, multipliers and right-hand sides; any order of the reduction", "why_tests_cant": "Tests compare a few solutions with tolerances; the identity between the gap and the projected residual holds for every (also not converged) lambda.", "anchors": ["src/feti/iterativesolver/iterativesolver.cpp: reconstructSolution", "src/feti/dualoperator/totalfeti.implicit.cpp: toPrimal, BtL", "src/feti/feti.cpp: FETI::solve"]}
{"id": "C96", "title": "The graph of domains is exact on every rank", "statement": "After DualGraph::set every rank knows exactly its own domains and the domains glued to them by some Lagrange multiplier, in increasing order. Each of them carries the rank that holds it, the first number of its kernels in the numbering of the kernels of all domains, the number of its kernels, and the positions of its multipliers in the vectors of this rank; the multipliers of own domains carry exactly the lower neighbours that keep a copy. The edges of an own domain are exactly the domains glued to it.", "quantifier": "all numbers of ranks, decompositions, sets of multipliers, numbers of kernels and schedules of messages, as long as a message fits the limit and the number of kernels fits int", "why_tests_cant": "The messages depend on the interplay of all ranks; tests run a few decompositions, usually with equal numbers of kernels and at most three domains per multiplier.", "anchors": ["src/feti/projector/dualgraph.cpp: DualGraph::pushVertex, DualGraph::set", "src/feti/projector/dualgraph.h: VertexInfo, EdgeInfo"]}
{"id": "C97", "title": "The matrices G and Gt of the projector are exact on every rank", "statement": "After the projector sets its matrices, G of every rank has exactly one row for every kernel of an own domain, with the elements of - R B^T in the columns of the multipliers of that domain. Gt starts with the same rows and continues with the rows of the kernels of those domains of higher ranks that are glued to an own domain, restricted to the multipliers kept by this rank; the values of these rows come from the other ranks. The vertices of the graph of domains know the rows of their kernels. The pattern is made once, and an update with new entries of B and new kernels is exact whatever values were there before.", "quantifier": "all numbers of ranks, decompositions, sets of multipliers, numbers of kernels, entries of B, kernels R, previous values and schedules of messages, as long as a message fits the limit", "why_tests_cant": "The place of a received value depends on the order of the neighbours, domains, kernels and multipliers on both ranks; tests run a few decompositions where most of these orders coincide.", "anchors": ["src/feti/projector/tfeti.orthogonal.symmetric.cpp: TFETIOrthogonalSymmetric::_setG, _updateG"]}
{"id": "C98", "title": "Every rank has the whole matrix G G^T", "statement": "The projector makes the pattern of G G^T once, from the graph of domains. After every update each rank has the upper triangle of the whole matrix in the CSR format with indices from 1: the rows are the kernels of all domains in the order of the domains, the columns of a row increase and start at the diagonal at the earliest, every stored value is the element of G G^T and every element that is not stored is zero. No index leaves its array, also while two rows of Gt are merged, and every rank ends.", "quantifier": "all numbers of ranks, decompositions, sets of multipliers, numbers of kernels (also none), entries of B, kernels R, previous values and contents of new arrays, with fewer than 2^31 - 1 elements", "why_tests_cant": "A wrong offset of the rows or columns appears only when several ranks with different numbers of kernels are glued in an irregular way; the merge of two rows reads behind the first row, which is defined only because the second row follows it.", "anchors": ["src/feti/projector/tfeti.orthogonal.symmetric.cpp: TFETIOrthogonalSymmetric::_setGGt, _updateGGt"]}
{"id": "C99", "title": "The ranks store the rows of the inverse of G G^T", "statement": "When the rows of G are linearly independent, G G^T is symmetric positive definite, and after an update every rank stores the rows of (G G^T)^-1 that belong to the kernels of its domains, or (with factors) its rows of two matrices whose product is (G G^T)^-1, the same two on all ranks. Without any kernel nothing is stored and the projector is marked as having no inverse.", "quantifier": "all numbers of ranks, decompositions, sets of multipliers, numbers of kernels, entries of B and kernels R with independent rows of G, both ways to store the inverse, all direct solvers that solve exactly", "why_tests_cant": "The rows of a rank are solutions with rows of the identity as right sides; it needs the symmetry of the inverse and the right order of the forward and the backward step, which a test with a diagonal or a small symmetric G G^T does not distinguish.", "anchors": ["src/feti/projector/tfeti.orthogonal.symmetric.cpp: TFETIOrthogonalSymmetric::_updateGGt", "src/feti/projector/projector.h: Projector::GGT_TYPE"]}
{"id": "C100", "title": "A sequence of updates keeps the projector that of the current system", "statement": "Start with a new projector and update it any number of times: the first time with any system, later with another right side, with other kernels and other entries of the multipliers, or with another number of multipliers or kernels. Then every execution of every update ends, and after each update the ranks hold the projector of the system at that time: its matrix G, its kernels, the rows of one inverse of G G^T (or of two factors), the offsets and the thread distribution, and e = - R f. The other functions of the projector (C94) are then correct.", "quantifier": "all numbers of ranks, all sequences of systems of that kind (any kernels, entries, right sides; rows of G independent), all contents of new arrays, all orders of messages", "why_tests_cant": "It is about all histories of updates and all interleavings of the messages inside of them; a test runs a few time steps of one model.", "anchors": ["src/feti/projector/tfeti.orthogonal.symmetric.cpp: TFETIOrthogonalSymmetric::update", "src/feti/projector/projector.cpp: Projector::reset"]}
{"id": "C101", "title": "DOFs of the domains are numbered without gaps and consistently with the domains of nodes", "statement": "Building the FETI pattern gives every DOF of the rank one record per domain of its node, in the same order. A record of a domain of another rank has no index. In each own domain the indices are a bijection between the DOFs of the domain and 0, ..., size - 1, where size is the number of DOFs of the domain; the order is increasing, with the DOFs of the surface first if the boundary element method is used, and the recorded surface size is the number of these DOFs.", "quantifier": "all meshes (number of nodes, of DOFs per node, domains of each node, offset and number of own domains) and all increasing lists of surface DOFs that contain every DOF shared by domains", "why_tests_cant": "Finitely many meshes; the records are filled by iterators that walk through several arrays in parallel, an error shows only for particular combinations of shared nodes.", "anchors": ["src/analysis/pattern/matrix.uniform.feti.cpp: fillDecomposition", "src/analysis/pattern/decomposition.feti.h: DIndex, ismy"]}
{"id": "C102", "title": "The sparsity pattern of a domain contains exactly the couplings of its elements", "statement": "The matrix of a domain in the CSR format has one row per DOF; the columns of a row are strictly increasing and they are exactly the DOFs that share an element of the domain with the DOF of the row (for a matrix stored as the upper triangle those not below the diagonal). The row pointers start with the first index of the CSR format (0 at the pinned commit), increase and end with it plus the number of stored entries. No array is accessed outside its bounds.", "quantifier": "all numbers of DOFs per node, full and upper shape, all meshes in which the nodes of a domain are the nodes of its elements, all sort functions that fulfil the contract of std::sort, all contents of uninitialised memory", "why_tests_cant": "The arrays have computed capacities and the rows are sorted and made unique in place; the property quantifies over all meshes.", "anchors": ["src/analysis/pattern/matrix.uniform.feti.cpp: buildPattern", "src/analysis/pattern/matrix.uniform.feti.h: set"]}
{"id": "C103", "title": "Assembling adds every value of every element matrix to the right entry exactly once", "statement": "After the chunks of SIMD lanes of all intervals of a domain were inserted, the entry of the CSR matrix for the DOFs k and l is its former value plus the values of the matrices of all elements that contain k and l, in the order of elements; for the upper shape the value is that of the upper triangle of the element matrix, whatever the order of k and l in the domain. Lanes behind the last element add nothing and no access is out of bounds.", "quantifier": "all meshes and shapes as in C102 in which an element lists a node once, all SIMD widths, all splittings of elements into intervals of the same element size, all matrices of elements, all values and additions", "why_tests_cant": "The position of each value is the result of three index computations (numbering, pattern, permutation) and of pointer increments per chunk; errors for incomplete chunks, mixed intervals or a reversed order of DOFs appear only for some meshes.", "anchors": ["src/analysis/pattern/matrix.uniform.feti.cpp: buildPattern", "src/analysis/assembler/general/filler.h: MatrixFillerKernel::simd"]}
{"id": "C104", "title": "Synchronizing a distributed vector makes every copy of a DOF the sum over processes", "statement": "Processes store vectors with entries for the DOFs of their nodes; a node shared by processes is stored on each of them. After synchronize, every copy of a DOF on every process holds the sum of the values all processes had stored for the DOF, added in the order of ranks. This holds whatever calls of gather, scatter and synchronize were made before with the same buffers, and no access is out of bounds.", "quantifier": "all numbers of processes, all numberings of nodes with contiguous ranges of owned nodes and halo nodes owned by lower neighbours, all numbers of DOFs per node, all values and additions, all sequences of former calls", "why_tests_cant": "The offsets into send and receive buffers depend on how the halo of one process falls into the ranges of others; tests run with a few processes and one mesh.", "anchors": ["src/analysis/pattern/vector.uniform.dense.cpp: Sync::init, gatherFromUpper, scatterToUpper", "src/analysis/pattern/decomposition.direct.cpp: update", "src/analysis/pattern/synchronization.h: synchronize", "src/analysis/math/vector_distributed.h: synchronize, scatter"]}
{"id": "C105", "title": "Gather gives sums to owners, scatter gives the values of owners to all copies", "statement": "The gather step leaves in the entry of the owner of a DOF the sum of the values of all processes, in the order of ranks, and does not change the copies on other processes. The scatter step makes every copy equal to the value of the owner.", "quantifier": "as in C104", "why_tests_cant": "As in C104; a wrong offset is visible only if a process has halo nodes from several owners.", "anchors": ["src/analysis/pattern/vector.uniform.dense.cpp: gatherFromUpper, scatterToUpper", "src/analysis/math/vector_distributed.h: scatter"]}
{"id": "C106", "title": "Copying between a distributed vector and domains", "statement": "Copying a distributed vector to domains gives every copy of a DOF in every domain of the process the value of the DOF; splitting gives it the value divided by the number of all domains of the DOF. Copying back (also storing to an output array and adding a multiple) uses the first copy on the process and keeps DOFs without a copy; copying there and back is the identity. No access is out of bounds.", "quantifier": "all meshes with nodes in any domains, all numbers of DOFs, all surfaces for BEM, all values, all previous contents, all output sizes up to the number of DOFs", "why_tests_cant": "The positions are results of the numbering of DOFs in domains; an error appears only for DOFs shared by domains of several processes in a particular order.", "anchors": ["src/analysis/math/vector_distributed.h: copyTo, spliteTo", "src/analysis/math/vector_feti.h: copyTo, addTo, storeTo, setFrom"]}
{"id": "C107", "title": "The sum and the average of a FETI vector count every copy once", "statement": "After sumTo every copy of a DOF on every process holds the sum over processes, in the order of ranks, of the sums of the copies in the domains of the process, in the order of the list of domains; the former content does not matter. averageTo divides it by the number of domains of the DOF. If all copies of a DOF are equal, the sum is the value multiplied by the number of domains of the DOF.", "quantifier": "all numbers of processes, all numberings of nodes and domains, all values and additions, any history of synchronizations", "why_tests_cant": "Copies on the same process and copies on other processes are added by different code; a copy counted twice or lost is visible only at nodes shared in both ways.", "anchors": ["src/analysis/math/vector_feti.h: sumTo, averageTo"]}
{"id": "C108", "title": "The norm of a FETI vector counts every DOF once", "statement": "On each process the norm adds the squares of a list of values; the lists of all processes together are, up to the order, the values of all DOFs of the whole problem, each one once, although DOFs have copies in many domains and processes.", "quantifier": "all numbers of processes, all meshes in which the processes agree on the domains of shared nodes, all vectors with equal copies", "why_tests_cant": "Each process decides alone which DOFs it counts; that each DOF is counted exactly once is a property of all processes together.", "anchors": ["src/analysis/math/vector_feti.h: _dot, norm"]}
{"id": "C109", "title": "The product with the matrices of domains is y = alpha A x + beta y", "statement": "After apply every copy of a DOF in y holds the sum over all processes and domains of the products (alpha times matrix of domain times the values of x for the DOFs of the domain) plus beta times the former value of y. The auxiliary data can be reused: the result does not depend on their content.", "quantifier": "all numbers of processes, all meshes, all matrices and values, any history of former products and synchronizations, every matrix-vector product of domains that keeps the length", "why_tests_cant": "Restriction, product, summation and synchronization have to agree on positions for all decompositions; y is used as input and output of the summation.", "anchors": ["src/analysis/pattern/matrix.uniform.feti.cpp: Apply::init, Apply::apply"]}
{"id": "C110", "title": "The rows of a distributed matrix contain the couplings of all processes", "statement": "After MatrixUniformDirect::set, the row of every DOF of every node a process has (own or halo) has exactly one column for each DOF of the node itself and of each node it has a common element with, on whichever process the element is; columns are strictly increasing, row pointers are consistent, and processes that share a node have the same row. The exchange of couplings never reads behind received data. (With an element that has a shared node twice it does.)", "quantifier": "every decomposition of a mesh among processes (nodes shared by any number of them), every number of DOFs per node, every initial content of the work arrays", "why_tests_cant": "The exchange relies on all processes going through shared nodes in the same order; tests see a few meshes on a few processes.", "anchors": ["src/analysis/pattern/matrix.uniform.direct.cpp: MatrixUniformDirect::buildPattern", "src/wrappers/mpi/communication.hpp: exchangeUnknownSize"]}
{"id": "C111", "title": "Element matrices of a distributed matrix are added to the right entries", "statement": "The permutation built by MatrixUniformDirect::set lists, for the elements of each interval in order and for the entries of each element matrix by rows, the position in the values of the process of exactly the entry given by the row DOF and the global column DOF; the offset of an interval is the number of entries of the previous intervals.", "quantifier": "every decomposition of a mesh among processes, every list of intervals, every number of DOFs", "why_tests_cant": "A wrong position of one entry is an assembly error visible only in particular meshes.", "anchors": ["src/analysis/pattern/matrix.uniform.direct.cpp: MatrixUniformDirect::buildPattern"]}
{"id": "C112", "title": "Synchronization of a distributed matrix adds the copies of an entry to the row of its owner", "statement": "After Matrix_Distributed::synchronize, every entry of every row owned by a process is the sum of the values that all processes that store the row had for this entry (in the order of processes, starting with the owner); entries of rows that a process only has a copy of are unchanged. The tables built by Sync::init and the buffers are reusable: the result does not depend on former synchronizations, and no access is out of bounds.", "quantifier": "every decomposition of a mesh among processes, every number of DOFs, all values of any type and any addition, any history of former synchronizations", "why_tests_cant": "The positions of received values depend on which rows are shared by three and more processes and on the couplings of remote elements; a wrong position shows only for such decompositions.", "anchors": ["src/analysis/pattern/matrix.uniform.direct.cpp: MatrixUniformDirect::Sync::init, gatherFromUpper", "src/analysis/math/matrix_distributed.h: synchronize"]}
{"id": "C113", "title": "The distributed matrix is the matrix assembled from the elements of all processes", "statement": "If the assembler adds the element matrices of every process and the matrix is synchronized, then the row of a DOF on its owner holds, for each column, the sum over all processes of what their elements contribute to this entry, regardless on which process the element is; with an associative addition it equals the entry of the matrix assembled sequentially from the elements of all processes.", "quantifier": "every decomposition of a mesh among processes, every number of DOFs, every SIMD width, all element matrices, any addition", "why_tests_cant": "It composes pattern, positions of element matrices and exchange; an error in one of them that is not visible in a test with a symmetric decomposition changes the solution silently.", "anchors": ["src/analysis/pattern/matrix.uniform.direct.h: set, map", "src/analysis/pattern/matrix.uniform.direct.cpp: buildPattern, Sync", "src/analysis/assembler/general/filler.h: MatrixFillerKernel"]}
{"id": "C114", "title": "The product with a distributed matrix uses every row once with the values of the owners", "statement": "When a distributed matrix A is applied to a distributed vector x, the result is available on every process that stores a DOF and it is, on all of them, the product of the whole row of the DOF (the values stored by the process that owns the DOF, one for every DOF of nodes in common elements, wherever the elements are) with the values that the owners of the columns hold in x, combined with the former value of y on the owner. Values of x and y on processes that do not own the DOF and results of earlier products have no influence.", "quantifier": "every decomposition of a mesh among processes (also when an element couples DOFs of two processes that share no node), every number of DOFs per node, all values of the matrix and of both vectors, every operation on the row, every history of products and vector synchronizations", "why_tests_cant": "The buffers are built from neighbours of neighbours and from sets of lower and higher columns; an omitted neighbour or a wrong order of columns shows only for decompositions where two processes are coupled by an element of a third one.", "anchors": ["src/analysis/pattern/matrix.uniform.direct.cpp: Apply::init, Apply::apply", "src/analysis/math/matrix_distributed.h: apply"]}
{"id": "C115", "title": "Applying the assembled distributed matrix is the product with the sequentially assembled matrix", "statement": "If the elements of all processes are assembled to the distributed matrix, the matrix is synchronized and applied to a distributed vector, then every copy of a DOF in the result holds what the product with the matrix assembled sequentially from the elements of all processes gives for it.", "quantifier": "every decomposition of a mesh among processes, every number of DOFs, every SIMD width, all element matrices and vectors, any associative addition with a neutral element, every history of products and synchronizations", "why_tests_cant": "It composes pattern, filling, gather and product; a test compares one decomposition, but not all of them.", "anchors": ["src/analysis/pattern/matrix.uniform.direct.cpp: buildPattern, Sync, Apply", "src/analysis/pattern/matrix.uniform.direct.h: set, map", "src/analysis/assembler/general/filler.h: MatrixFillerKernel"]}
{"id": "C116", "title": "sortNodes orders the nodes of a process and renumbers everything that refers to them", "statement": "After mesh::sortNodes the nodes of a process are ordered by their lowest rank and then by IDs, nhalo is the number of nodes owned by lower ranks, every node keeps its list of ranks, and every element and every region of the boundary consists of the same nodes (by IDs) as before; the nodes of regions are ordered by local numbers, the region ALL_NODES is untouched.", "quantifier": "every list of nodes with different IDs and non-empty lists of ranks, all elements and regions with valid local numbers, every std::sort", "why_tests_cant": "A permutation and its inverse agree on small and on symmetric examples; a mix-up of the two shows only for permutations that are not involutions.", "anchors": ["src/mesh/preprocessing/pure.cpp: sortNodes"]}
{"id": "C117", "title": "synchronizeRegionNodes makes regions agree on shared nodes", "statement": "After the synchronization of regions a node that a process has is in a region of this process exactly if any process had it in the region before; the lists stay increasing without repetitions.", "quantifier": "every decomposition of nodes among processes with ordered nodes (C116), every number of regions, all increasing lists of nodes of regions", "why_tests_cant": "A node is missing only if its region is known to some of its processes but not to all of them, which depends on the decomposition.", "anchors": ["src/mesh/preprocessing/clustered.cpp: synchronizeRegionNodes"]}
{"id": "C118", "title": "computeNodeInfo numbers the nodes of every region", "statement": "For regions that agree on shared nodes, computeNodeInfo gives every region numbers 0, 1, ..., totalSize - 1 such that two nodes on any processes have the same number exactly if they are the same node, the numbers of the nodes owned by a process (the lowest one that has the node) are consecutive and start at its offset, the copies of nodes of lower ranks come first with increasing numbers.", "quantifier": "every decomposition of nodes among processes with ordered nodes, every number of regions, including empty ones", "why_tests_cant": "The numbers of the halo are copied from messages block by block without any identification of nodes; they fit only because both sides order the common nodes in the same way.", "anchors": ["src/mesh/preprocessing/clustered.cpp: computeNodeInfo", "src/mesh/store/nodeuniquenessinfo.h: NodeUniquenessInfo"]}
{"id": "C119", "title": "Regions of the mesh have the nodes of their elements", "statement": "After computeRegionsElementNodes and computeRegionsBoundaryNodes the nodes of a region on a process are exactly those nodes of the process that are nodes of the region (given directly or by its elements) on any process, they are numbered as in C118, and getPosition returns the number of a node of the region.", "quantifier": "every decomposition of a mesh with ordered nodes among processes, all lists of elements of regions in any distribution to threads, every std::sort", "why_tests_cant": "Nodes of a region on the border of a process come from elements of other processes.", "anchors": ["src/mesh/preprocessing/clustered.cpp: computeRegionsElementNodes, computeRegionsBoundaryNodes", "src/mesh/store/regionstore.cpp: getPosition"]}
{"id": "C120", "title": "The numbered mesh meets the assumptions of distributed vectors and matrices", "statement": "From any decomposition of nodes with correct lists of ranks, sortNodes and computeRegionsBoundaryNodes make the mesh that the patterns of distributed vectors and matrices (C104-C115) assume: consecutive numbers of own nodes, an increasing halo of nodes of lower neighbours, and lists of ranks that match the numbers. Nodes have a common element by the new numbers exactly if they had one by IDs, and regions keep their nodes.", "quantifier": "every decomposition of a mesh among processes, all regions of the boundary with ALL_NODES as the first one, every std::sort", "why_tests_cant": "It connects the preprocessing with the assembly; a violated assumption shows as a wrong matrix on some decomposition only.", "anchors": ["src/mesh/preprocessing/pure.cpp: sortNodes", "src/mesh/preprocessing/clustered.cpp: computeRegionsBoundaryNodes, computeNodeInfo", "src/input/builders/input.cpp: fillNodes"]}
{"id": "C121", "title": "Bounding boxes of regions", "statement": "computeNodeInfo gives every region except of the first one the smallest box that contains its nodes on all processes (the empty box if it has none). The first region gets the smallest box of the nodes of all regions, which is its own box if it contains the nodes of the others.", "quantifier": "all coordinates within the range of doubles, every number of processes and regions", "why_tests_cant": "The minimum has to be right for nodes of any process in any region.", "anchors": ["src/mesh/preprocessing/clustered.cpp: computeNodeInfo", "src/basis/containers/point.h: minmax"]}
{"id": "C122", "title": "Ranks of nodes", "statement": "computeNodesDuplication gives every node of every process the increasing list of exactly those processes that have the node. The result is what the exchange of data of nodes expects (C116 to C121).", "quantifier": "all numbers of processes, all increasing lists of IDs of nodes, all symmetric lists of neighbours that cover common nodes", "why_tests_cant": "The positions in the lists of all neighbours move together; a missed step depends on gaps between the IDs.", "anchors": ["src/mesh/preprocessing/pure.cpp: computeNodesDuplication"]}
{"id": "C123", "title": "Elements of a node", "statement": "linkNodesAndElements stores for every node of every process the IDs of all elements of the whole mesh that contain the node, in order, also of elements that are stored only on other processes. The result depends neither on the number of threads nor on the distribution of elements and nodes to them nor on the order in which threads work. The last node of a process has to be in an element: otherwise it gets no record and reading it is out of bounds.", "quantifier": "all meshes with sorted IDs of nodes, every number of processes and threads, every schedule of the parallel loops, every std::sort", "why_tests_cant": "Threads rewrite parts of the same array, the parts of neighbours are merged and a record depends on all of them.", "anchors": ["src/mesh/preprocessing/pure.cpp: linkNodesAndElements", "src/basis/utilities/utils.hpp: sortWithInplaceMerge, mergeAppendedData"]}
{"id": "C124", "title": "Neighbours of elements across faces and edges", "statement": "computeElementsEdgeNeighbors stores for every element and every edge the number and the increasing IDs of exactly those other elements of the whole mesh that contain all nodes of the edge. computeElementsFaceNeighbors stores the only other element with all nodes of the face, or -1 if there is none; it stops exactly if a face is in more than two elements. An element that lists a node twice breaks this: a face with a single neighbour can be refused.", "quantifier": "all meshes with unique IDs of elements without repeated nodes, all element types (lists of faces), every number of processes, threads and schedules", "why_tests_cant": "Neighbours on other processes are known only by the exchanged links; intersections of sorted lists are wrong only for particular orders.", "anchors": ["src/mesh/preprocessing/pure.cpp: computeElementsFaceNeighbors, computeElementsEdgeNeighbors, computeElementsNeighbors"]}
{"id": "C125", "title": "The lumped preconditioner computes B K B^T", "statement": "Applying the lumped preconditioner to a distributed dual vector and synchronizing gives every rank its elements of B K B^T x. The operator is symmetric and, if every K is positive semi-definite, positive semi-definite.", "quantifier": "every number of ranks, domains and multipliers, every sharing, all sparse rows of B1, all symmetric K and vectors (exact arithmetic)", "why_tests_cant": "all decompositions, matrices and vectors", "anchors": ["src/feti/preconditioner/lumped.cpp: Lumped::apply", "src/feti/common/applyB.h: applyB, applyBt"]}
{"id": "C126", "title": "The Dirichlet preconditioner stores and applies the Schur complement of the surface", "statement": "update() of a domain without a solver that provides Schur complements stores the columns with constraints in increasing order and the packed upper triangle of the Schur complement of these degrees of freedom: column j are the forces on the surface when its degree of freedom j is 1, the others are 0 and no forces act inside. apply() with such a complement and any old content of the work vectors gives, after the synchronization, every rank its elements of B K w, where w is in every domain the extension of B^T x without forces inside. The operator is symmetric, positive semi-definite if every K is, and then its quadratic form is at most that of the lumped preconditioner.", "quantifier": "every number of ranks, domains and multipliers, every sharing, all sparse rows of B1 (all surfaces, also empty ones and the whole domain), all symmetric K stored as the upper triangle with a solvable interior, all vectors, every former content of the work arrays (exact arithmetic)", "why_tests_cant": "all decompositions, matrices and vectors", "anchors": ["src/feti/preconditioner/dirichlet.cpp: Dirichlet::update, apply, _manual", "src/math/math.h: permute", "src/math/primitives/matrix_dense.h, src/math/wrappers/math.spblas.h: submatrix"]}
{"id": "C127", "title": "The implicit Dirichlet preconditioner gives the same without the Schur complement", "statement": "set() and update() of the implicit Dirichlet preconditioner succeed and apply() gives, after the synchronization, every rank its elements of B K w with the extension w of B^T x without forces inside; this result is determined by B, K and x, so it is the result of the Dirichlet preconditioner.", "quantifier": "every number of ranks, domains and multipliers, every sharing, all sparse rows of B1, all symmetric K stored as the upper triangle with a solvable interior, all vectors, every former content of new arrays (exact arithmetic)", "why_tests_cant": "all decompositions, matrices and vectors", "anchors": ["src/feti/preconditioner/dirichlet.implicit.cpp: DirichletImplicit::set, update, apply", "src/math/wrappers/math.spblas.h: apply, applyT, submatrix", "src/math/math.h: permute"]}
{"id": "C128", "title": "PCPG on all ranks computes what PCPG on whole vectors computes", "statement": "When every rank runs PCPG on its own multipliers, with the scalar products and the sums over neighbours taken over all ranks, each rank holds after every number of passes its elements of the iterate, residual and direction of the solver on whole vectors; the tested number and the status are the same on all ranks. This holds for every synchronized dual operator and preconditioner; the implicit dual operator of Total FETI and the empty, lumped, Dirichlet and implicit Dirichlet preconditioners are such.", "quantifier": "every number of ranks, domains, multipliers, passes, every sharing, every division (defined or not), orthogonal and conjugate projector, explicit and factorised coarse matrix (exact arithmetic)", "why_tests_cant": "all decompositions and numbers of passes", "anchors": ["src/feti/iterativesolver/pcpg.cpp: PCPG::solve", "src/feti/projector/projector.cpp: Projector::apply, applyT, applyInvU, applyInvL", "src/feti/preconditioner/emptypreconditioner.h", "src/feti/preconditioner/lumped.cpp", "src/feti/preconditioner/dirichlet.cpp", "src/feti/preconditioner/dirichlet.implicit.cpp", "src/feti/dualoperator/totalfeti.implicit.cpp: apply"]}
{"id": "C129", "title": "Total FETI solves the problem of the domains", "statement": "If the domain matrices are symmetric positive semidefinite, the given kernels are their kernels, the solver of the domains is a symmetric generalized inverse, the rows of B are independent and the coarse inverse is exact, then the dual problem is positive definite on the kernel of G with each of the preconditioners; after every number of passes the solution reconstructed by all ranks is in equilibrium with the multipliers (K u = f - B^T lambda in each domain) and the gap at the interfaces B u - c is the projected residual that PCPG tests; after at most as many passes as there are multipliers PCPG has stopped by a criterion or the gap is zero (B u = c).", "quantifier": "every number of ranks, domains and multipliers, every sharing, all such matrices, kernels, rows, loads and gaps, the empty, lumped and Dirichlet preconditioner (exact arithmetic)", "why_tests_cant": "all problems and decompositions", "anchors": ["src/feti/iterativesolver/pcpg.cpp: PCPG::solve, reconstructSolution", "src/feti/iterativesolver/iterativesolver.cpp: reconstructSolution", "src/feti/dualoperator/totalfeti.implicit.cpp: update, apply, toPrimal", "src/feti/projector/projector.cpp"]}
{"id": "C130", "title": "Total FETI solves the assembled problem", "statement": "With the gluing and Dirichlet constraints that EqualityConstrains sets on all ranks, the solution that all ranks reconstruct from the result of PCPG satisfies at every free degree of freedom, in every state of the solver, that the forces of all domains with a copy add up to the load; after at most as many passes as there are multipliers PCPG has stopped by a criterion, or all copies of every degree of freedom are equal, fixed ones have their prescribed value, and the common values solve the problem assembled from all domains, as if there were no domains.", "quantifier": "every number of ranks, domains and degrees of freedom, every distribution of copies, every set of fixed degrees of freedom with any values, all loads and all symmetric positive semidefinite matrices of domains with their kernels, the empty, lumped and Dirichlet preconditioner (exact arithmetic)", "why_tests_cant": "all meshes, decompositions and problems", "anchors": ["src/analysis/linearsystem/constrains/equalityconstrains.cpp: EqualityConstrains::set, update", "src/feti/iterativesolver/pcpg.cpp: PCPG::solve", "src/feti/iterativesolver/iterativesolver.cpp: reconstructSolution", "src/feti/dualoperator/totalfeti.implicit.cpp", "src/feti/projector/projector.cpp"]}
{"id": "C131", "title": "A well posed problem is solved by the constraints, the projector and PCPG together", "statement": "If the problem assembled from all domains has only one solution, the coarse problem of Total FETI is regular: the update of a new orthogonal TFETI projector with the matrices that EqualityConstrains sets ends on all ranks, and with the projector that results PCPG and the reconstruction end on all ranks after at most as many passes as there are multipliers; unless a stopping criterion was met, all domains hold the restriction of the one solution of the assembled problem.", "quantifier": "every number of ranks, domains and degrees of freedom, every distribution of copies and fixed degrees of freedom, all loads and prescribed values, all symmetric positive semidefinite matrices of domains with a basis of their kernels for which the assembled problem is well posed, both forms of the coarse problem (inverse or factors), the empty, lumped and Dirichlet preconditioner (exact arithmetic)", "why_tests_cant": "all meshes, decompositions and problems", "anchors": ["src/analysis/linearsystem/constrains/equalityconstrains.cpp: EqualityConstrains::set, update", "src/feti/projector/tfeti.orthogonal.symmetric.cpp: TFETIOrthogonalSymmetric::update", "src/feti/projector/projector.cpp", "src/feti/iterativesolver/pcpg.cpp: PCPG::solve", "src/feti/iterativesolver/iterativesolver.cpp: reconstructSolution"]}
{"id": "C132", "title": "Every rank knows the numbers of its elements, by element type and by region", "statement": "After the element distribution is computed every rank knows for every element type, and for all types together, how many elements it has, how many there are on lower ranks and how many on all ranks; its elements have the numbers from offset to next. The same holds for every region of elements and for every boundary region with a dimension (except that next of a boundary region lacks the offset); for a region of nodes the numbers of the nodes whose lowest rank is the own one are under the type of points, everything else is zero.", "quantifier": "all numbers of ranks, all distributions of elements and types over ranks (also ranks without elements), all sets of regions, as long as the numbers fit the integer type", "why_tests_cant": "Types and regions that occur on one rank only, empty ranks and the order of values in one common scan are combinations that a few meshes do not cover.", "anchors": ["src/mesh/preprocessing/pure.cpp: computeElementDistribution, computeRegionsElementDistribution", "src/mesh/preprocessing/clustered.cpp: computeRegionsBoundaryDistribution", "src/mesh/store/elementinfo.cpp: clear"]}
{"id": "C133", "title": "The MESIO interface reports numbers of elements and domains", "statement": "MESIOElements gives the number of elements on lower ranks, on the rank and on all ranks; MESIOElementsRegionCounters gives for a region and an element type how many such elements are on lower ranks and on all ranks, MESIOElementsCounters the same for all elements if the first region is the region of all elements; the domain reported for an element is the one whose range of elements contains it.", "quantifier": "all numbers of ranks, meshes, regions, types and divisions into domains (also empty ones)", "why_tests_cant": "A test with one rank or one type cannot tell a wrong prefix sum from a right one; the claim ranges over all distributions.", "anchors": ["src/api/wrapper.mesio.cpp: MESIOData, MESIOElements, MESIOElementsCounters, MESIOElementsRegionCounters", "include/mesio.h"]}
{"id": "C134", "title": "Synchronization of several dual vectors at once and the dual operator applied to them", "statement": "When all ranks synchronize a matrix whose rows are vectors of Lagrange multipliers, every execution ends and every row on every rank becomes what the synchronization of that row alone gives: the values of all ranks that keep a copy are added. The communication buffers are kept between the calls and have place for the largest number of rows so far. If every rank shares a multiplier with its first neighbour (or it is the first call, or the matrix has no more rows than a previous one) nothing is read or written outside of them. Applying the implicit dual operator to a matrix gives B K+ B^T times each of its rows; rows left out by the filter are sums of the previous values of all ranks. If a rank shares no multiplier with its first neighbour and a later matrix has more rows, the buffers are not enlarged and the rank writes behind them.", "quantifier": "all numbers of ranks, decompositions, maps of multipliers, numbers of rows, values, contents of the buffers, filters, and all interleavings of the messages", "why_tests_cant": "the result depends on the order of messages, on the history of the static buffers and on which neighbours share multipliers; a test fixes one decomposition and one sequence of calls", "anchors": ["src/feti/common/matrix_dual.cpp: Matrix_Dual::synchronize", "src/feti/dualoperator/totalfeti.implicit.cpp: TotalFETIImplicit::apply", "src/feti/common/matrix_dual.h"]}
{"id": "C135", "title": "SMALBE: bounds and equality constraints together", "statement": "The solver for problems with bounds and with equality constraints (for the amplitudes of kernels) minimizes 1/2 x.Fx - d.x subject to Gx = e and to the bounds of inequality multipliers. If zero is between the bounds, then however the iterations end the returned multipliers are between the original bounds, and no quotient by zero is computed. If the criterion of the outer iterations is met, the norm of the defect of the constraints and the norm of the projected gradient of the augmented Lagrangian at the returned multipliers, with the returned amplitudes of kernels as multipliers of the constraints, are at most the precision times the norm of the projected right-hand side; a right-hand side e with the norm up to ten times the precision is treated as zero. With the precision zero a met criterion means that the multipliers are the exact solution and the amplitudes are its Lagrange multipliers. If no error is reported, the criterion was met; an error is reported exactly if the number of iterations exceeds the limit. An outer iteration that does not meet the criterion continues from the found multipliers with amplitudes increased by the penalty times the defect of the constraints, so that the gradient of the Lagrangian without the penalty is the gradient of the augmented one made small by the inner iterations. The flag that the solver converged is never set in the reported information, even if the criterion was met.", "quantifier": "all numbers of multipliers and of kernels, operators F symmetric and positive definite where the constraints are homogeneous, factorized coarse problems, bounds, right-hand sides, parameters, preconditioners, numbers of outer iterations; exact real arithmetic", "why_tests_cant": "the path of the inner and outer iterations depends on all the numbers; optimality is a statement about all feasible vectors", "anchors": ["src/feti/iterativesolver/smalbe.cpp: SMALBE::solve", "src/feti/iterativesolver/mprgp.cpp: MPRGP::run", "src/feti/projector/projector.cpp: Projector::apply, apply_invL, apply_invU, apply_invLG, apply_GtinvU"]}
{"id": "C136", "title": "The estimate of the largest eigenvalue of the dual operator", "statement": "The power method that gives the length of the steps of MPRGP and the scaling of SMALBE starts from a vector with entries plus or minus one divided by the square root of their number. For a symmetric positive definite dual operator no quotient by zero is computed, the estimate is positive and lies between the smallest and the largest eigenvalue, a larger limit of iterations does not decrease it, at most one iteration more than the limit is done, and if the method ends before the limit with more than one iteration, the last iteration changed the estimate by at most the given relative precision. For the projected operator the estimate is positive and at most the largest eigenvalue of the dual operator among the vectors that satisfy the homogeneous constraints; a quotient by zero is computed exactly if the projection of the first vector is zero. The estimate need not be the largest eigenvalue: the first iteration is compared with the norm of the first vector, and if that vector is an eigenvector for another eigenvalue, the method ends with that eigenvalue.", "quantifier": "all numbers of multipliers, signs of the first vector, symmetric positive definite operators, orthogonal projectors, precisions below the largest double, limits of iterations; exact real arithmetic", "why_tests_cant": "eigenvalues of the operators of tests are not known exactly and the bounds are statements about all vectors and all operators", "anchors": ["src/feti/dualoperator/dualoperator.cpp: DualOperator::estimateMaxEigenValue, estimateMaxProjectedEigenValue, getInitVector", "src/feti/iterativesolver/mprgp.cpp: MPRGP::solve", "src/feti/iterativesolver/smalbe.cpp: SMALBE::solve"]}
{"id": "C137", "title": "Prescribed values on boundary regions", "statement": "The sparse vector of prescribed values (temperatures, displacements) has as indices, in increasing order and without repetition, exactly the components of nodes that some configured boundary region prescribes. After the values of the expressions are set, every entry of the vector is the value of the last region that prescribes its component, independently of the distribution of the nodes of regions to threads, and no access is out of bounds. Without configured regions the pattern is empty. With multiplicity 2, which the harmonic analysis uses for the solver, every mesh with a configured displacement makes the constructor read behind the three expressions of the displacement.", "quantifier": "all numbers of nodes, dimensions 1 to 3, lists of regions, distributions of their nodes to threads (repeated nodes included), sets of configured components, values of expressions", "why_tests_cant": "tests have few regions, and overlaps of regions on several threads are rare in them", "anchors": ["src/analysis/pattern/vector.uniform.sparse.cpp: VectorUniformSparse::VectorUniformSparse, buildPattern", "src/analysis/pattern/vector.uniform.sparse.h: VectorUniformSparse::map", "src/analysis/assembler/general/filler.h: VectorSetterKernel::simd", "src/analysis/assembler/general/filler.cpp: DataFiller::activate", "src/analysis/assembler/assembler.cpp: Assembler::assemble", "src/analysis/physics/structuralmechanics.harmonic.real.linear.cpp: StructuralMechanicsHarmonicRealLinear::analyze"]}
{"id": "C138", "title": "Loads are added to the components they belong to", "statement": "After the kernels of all elements, of all faces of boundary regions and of all nodes of boundary regions have added their vectors to the right-hand side, every component of every node is its former value plus the values that the elements and faces containing the node have for it, for every occurrence of the node, plus the forces given in the node by the regions without elements; no access is out of bounds. For forces given in the nodes of a region that has elements this is false: the kernels of nodes take the positions of the faces of the region, so forces are added to other components.", "quantifier": "all meshes, numbers of components, splittings into intervals and threads, lists of regions, vectors of elements, faces and nodes; any commutative and associative addition", "why_tests_cant": "the positions are read from arrays built in another pass; forces in nodes of regions with elements need a region with several components and faces to be seen", "anchors": ["src/analysis/pattern/vector.uniform.dense.cpp: VectorUniformDense::buildPattern", "src/analysis/pattern/vector.uniform.dense.h: VectorUniformDense::map", "src/analysis/assembler/general/filler.h: RHSFillerKernel::simd", "src/analysis/assembler/general/filler.cpp: DataFiller::activate", "src/analysis/assembler/structuralmechanics.cpp: StructuralMechanics::connect", "src/analysis/assembler/assembler.cpp: Assembler::assemble"]}
{"id": "C139", "title": "Prescribed values in the direct solvers keep the solutions and the symmetry", "statement": "When a direct solver on one process puts the prescribed values into the linear system, a vector solves the changed system if and only if it has the prescribed values and solves all original equations of the DOFs that are not prescribed. No access is out of range and the pattern of the matrix does not change. If the original matrix is symmetric, so is the changed one: rows and columns of prescribed DOFs are those of the identity, and entries between other DOFs are unchanged. (A solver that reads the upper triangle only relies on this.)", "quantifier": "every square sparse matrix with non-repeated columns in range, stored diagonal and entries stored in pairs, every right-hand side, every list of distinct prescribed DOFs and values, every ring of numbers", "why_tests_cant": "Tests check the solutions of a few meshes; the elimination interferes with other prescribed rows and columns depending on the order and the pattern, which are arbitrary.", "anchors": ["src/analysis/linearsystem/directsolver.cpp: DirectLinearSystemSolver::setDirichlet", "src/analysis/linearsystem/sequentialsolver.h"]}
{"id": "C140", "title": "The sequential direct solver gets exactly the upper triangle", "statement": "For a matrix of a symmetric type, the matrix passed to the sequential direct solver consists of exactly the entries on and above the diagonal, in the same order, with correct row offsets, columns and values for both index bases; the number of entries counted for the allocation is the number that is written and no access is out of range. For a symmetric matrix, these entries with their reflections are all the entries of the matrix.", "quantifier": "every sparse matrix in compressed rows (also with empty rows and unsorted columns), every base of indices, every content of the allocated memory", "why_tests_cant": "Tests check the solutions for a few patterns; counting and filling are separate loops whose agreement, and the offsets of all rows, depend on the whole pattern.", "anchors": ["src/analysis/linearsystem/sequentialsolver.h: SequentialLinearSystemSolver::copyPattern", "src/analysis/linearsystem/sequentialsolver.h: SequentialLinearSystemSolver::copyValues"]}
