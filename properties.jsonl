{"id": "C01", "title": "General tile storage never overlaps and never leaves its allocation", "statement": "After plasma_desc_general_create succeeds for an lm x ln matrix with mb x nb tiles, the address that plasma_tile_addr plus the tile's leading dimension gives to matrix element (i,j) lies inside the lm*ln elements that were allocated, two different elements never share an address, and every allocated element is the home of some matrix element.", "quantifier": "every lm, ln, mb, nb >= 1 and every pair of elements of the matrix (so every tile, including the short last row, last column and corner tile)", "why_tests_cant": "a test checks a handful of sizes; overlap or overrun appears only for particular remainders lm mod mb and ln mod nb and for element pairs a residual check does not separate", "anchors": ["include/plasma_descriptor.h:plasma_tile_addr_general", "include/plasma_descriptor.h:plasma_tile_mmain", "include/plasma_descriptor.h:plasma_tile_nmain", "control/descriptor.c:plasma_desc_general_init", "control/descriptor.c:plasma_desc_general_create"]}
{"id": "C02", "title": "Packed triangular tile storage never overlaps and never leaves its allocation", "statement": "After plasma_desc_triangular_create succeeds for an n x n matrix, every element of every tile on the stored side of the diagonal (diagonal tiles included, whole) has an address inside the allocation made for the descriptor, and different elements of stored tiles have different addresses.", "quantifier": "both uplo values, every n and nb >= 1, every pair of elements in stored tiles", "why_tests_cant": "the packed layout saves memory by a triangular-number offset; an off-by-one in it corrupts a neighbouring tile only for some n/nb combinations and only detectably for some data", "anchors": ["include/plasma_descriptor.h:plasma_tile_addr_triangle", "control/descriptor.c:plasma_desc_triangular_init", "control/descriptor.c:plasma_desc_triangular_create"]}
{"id": "C03", "title": "Band tile storage never overlaps and never leaves its allocation", "statement": "For a band descriptor created with bandwidths kl, ku the way the band drivers create it, every element of every tile that can meet the band has an address inside the allocation and different elements have different addresses.", "quantifier": "every n, kl, ku >= 0, nb >= 1 and every pair of elements in tiles within the tile band", "why_tests_cant": "the address of a tile depends on the difference of tile coordinates; tests visit few bandwidth/tile-size ratios", "anchors": ["include/plasma_descriptor.h:plasma_tile_addr_general_band", "control/descriptor.c:plasma_desc_general_band_create", "control/descriptor.c:plasma_desc_general_band_init"]}
{"id": "C04", "title": "Tiles partition the matrix", "statement": "The tile heights reported for tile rows 0..mt-1 of a descriptor (or of a tile-aligned view) are all between 1 and mb and add up to exactly m, likewise widths and n, so each row and column of the user matrix belongs to exactly one tile; and a tile's visible size never exceeds its stored leading dimension.", "quantifier": "every matrix size, tile size and tile-aligned view", "why_tests_cant": "only an argument over all remainders shows no row is dropped or visited twice", "anchors": ["include/plasma_descriptor.h:plasma_tile_mview", "include/plasma_descriptor.h:plasma_tile_nview", "include/plasma_descriptor.h:plasma_tile_mmain", "control/descriptor.c:plasma_desc_view"]}
{"id": "C05", "title": "Layout translation is exact and its round trip is the identity", "statement": "Translating a column-major LAPACK array into tile layout puts element (i,j) of the array at tile element (i,j) and translating back restores every element of the m x n matrix bit for bit; array elements in the padding rows m..lda-1 and beyond column n are neither read into the result nor modified; the copy tasks may run in any order.", "quantifier": "every m, n >= 0, lda >= max(1,m), tile size, array contents and execution order of the copy tasks", "why_tests_cant": "tests compare numerical residuals of whole operations with small tolerances; a misplaced element in padding, or an order-dependent copy, goes unnoticed", "anchors": ["compute/pzge2desc.c:plasma_pzge2desc", "compute/pzdesc2ge.c:plasma_pzdesc2ge", "core_blas/core_zlacpy.c:plasma_core_zlacpy"]}
{"id": "C06", "title": "Triangular layout translation touches only the selected triangle", "statement": "Translating the selected triangle of a LAPACK array to packed triangular tile layout and back is the identity on that triangle, and the entries of the user's array strictly on the other side of the diagonal, and its padding, are left exactly as they were.", "quantifier": "both uplo, every n, lda, nb, contents and order of copy tasks", "why_tests_cant": "the untouched-other-triangle guarantee is about every memory cell; tests do not poison and check it for all shapes", "anchors": ["compute/pztr2desc.c:plasma_pztr2desc", "compute/pzdesc2tr.c:plasma_pzdesc2tr", "core_blas/core_zlacpy.c:plasma_core_zlacpy"]}
{"id": "C07", "title": "Descriptor checking accepts what creation produces", "statement": "Any descriptor that plasma_desc_general_create makes from a non-empty matrix with positive tile sizes and a submatrix inside it passes plasma_desc_check, a descriptor that passes plasma_desc_check describes a submatrix inside its matrix, and a tile-aligned view of such a descriptor passes again and names the same memory as the corresponding part of its parent.", "quantifier": "all creation arguments, all descriptors, all tile-aligned views", "why_tests_cant": "check/creation agreement is an equivalence over an infinite family of descriptors", "anchors": ["control/descriptor.c:plasma_desc_general_check", "control/descriptor.c:plasma_desc_check", "control/descriptor.c:plasma_desc_view", "control/descriptor.c:plasma_desc_general_create"]}
{"id": "C08", "title": "Band descriptor check rejects a descriptor whose storage is too short", "statement": "plasma_desc_check refuses a band descriptor whose number of stored tile rows cannot hold the declared bandwidths, for lower, upper and general band storage alike.", "quantifier": "all band descriptors", "why_tests_cant": "the claim is about the descriptors that are rejected; the test-suite only builds valid ones", "anchors": ["control/descriptor.c:plasma_desc_general_band_check"]}
{"id": "C09", "title": "Option settings behave as a simple key/value store", "statement": "After any history of plasma_init, plasma_set, plasma_get and plasma_finalize calls, plasma_get of an option returns the value of the most recent successful plasma_set of that option since the last successful initialisation, or its documented default if there was none; a rejected plasma_set changes nothing, calls outside an initialised period are refused, and options do not influence one another.", "quantifier": "all finite histories of calls with all parameter/value pairs", "why_tests_cant": "a property of unbounded call histories", "anchors": ["control/context.c:plasma_init", "control/context.c:plasma_set", "control/context.c:plasma_get", "control/context.c:plasma_finalize", "control/context.c:plasma_context_init"]}
{"id": "C10", "title": "Computational routines do not change the user's tuning parameters", "statement": "The tile size, inner block size and panel thread count reported by plasma_get stay what the user set, whatever sequence of computational routines (which call the auto-tuner) runs in between.", "quantifier": "all histories mixing plasma_set with tuned computational calls, tuning enabled or disabled", "why_tests_cant": "depends on a global configuration handle never being loaded on any path; tests run with tuning disabled or never read the values back", "anchors": ["control/tuning.c:plasma_tuning_init", "control/tuning.c:plasma_tune_gemm", "control/context.c:plasma_context_init"]}
{"id": "C11", "title": "An asynchronous error is never lost or turned into success", "statement": "Once a request fails in a sequence, the status of the sequence stays different from PlasmaSuccess through every later failure report, until the sequence is re-initialised, and the sequence remembers the most recent failing request; initialisation resets to success.", "quantifier": "all histories of sequence/request initialisation and failures with non-zero codes", "why_tests_cant": "property of unbounded histories", "anchors": ["control/async.c:plasma_request_fail", "control/async.c:plasma_sequence_init", "control/async.c:plasma_request_init", "include/plasma_async.h"]}
{"id": "C12", "title": "Illegal arguments are reported by position and have no effect", "statement": "A synchronous routine given illegal arguments returns minus the position of the first illegal argument in its parameter list and performs no computation; with legal arguments it does not return a negative argument code.", "quantifier": "all argument combinations of each modelled routine", "why_tests_cant": "combinations of simultaneous illegal arguments are too many to enumerate and the test-suite passes only legal ones", "anchors": ["compute/zgemm.c:plasma_zgemm", "compute/zherk.c:plasma_zherk", "compute/zsyrk.c:plasma_zsyrk", "compute/zpotrf.c:plasma_zpotrf", "compute/zgetrf.c:plasma_zgetrf", "compute/zgesv.c:plasma_zgesv", "compute/ztrsm.c:plasma_ztrsm", "compute/zgetrs.c:plasma_zgetrs", "compute/zlaset.c:plasma_zlaset", "compute/zgbmm.c:plasma_zgbmm"]}
{"id": "C13", "title": "Panel barrier separates rounds and never deadlocks", "statement": "When the same number of threads repeatedly call the barrier, no thread returns from its r-th wait before every thread has entered its r-th wait, and from every reachable state some thread can make progress until all have returned, for every interleaving of the individual memory operations and every number of reuses of the barrier.", "quantifier": "every number of threads, every number of rounds, every interleaving of atomic operations", "why_tests_cant": "interleavings of a spin barrier cannot be enumerated or forced by tests", "anchors": ["control/barrier.c:plasma_barrier_wait", "control/barrier.c:plasma_barrier_init", "include/plasma_barrier.h"]}
{"id": "C14", "title": "Task dependences make parallel execution equal to sequential execution", "statement": "If the tasks of a region declare, for every tile they read, an input dependence and, for every tile they write, an output dependence, then every execution the OpenMP runtime may choose - any order and any interleaving of the tasks' individual memory accesses that respects the declared dependences - ends in the same memory as running the tasks one after another in submission order.", "quantifier": "all task lists, all admissible schedules and interleavings, all initial memories", "why_tests_cant": "schedules are chosen by the runtime; a missing dependence shows up as a rare race", "anchors": ["compute/pzgemm.c", "compute/pzpotrf.c", "compute/pzge2desc.c", "core_blas/core_zgemm.c:plasma_core_omp_zgemm"]}
{"id": "C15", "title": "Matrix multiply computes alpha*op(A)*op(B)+beta*C", "statement": "plasma_zgemm on legal arguments leaves C equal to alpha*op(A)*op(B)+beta*C (over exact arithmetic) for the original contents, for every transposition pair, and changes nothing else, in particular not A, B or the padding of C; the result is the same for every tile size and every schedule.", "quantifier": "all m, n, k >= 0, all leading dimensions, all transposes, all scalars, all contents, all tile sizes, all admissible schedules", "why_tests_cant": "finite tests with a residual tolerance cover few shapes and one schedule each", "anchors": ["compute/zgemm.c:plasma_zgemm", "compute/zgemm.c:plasma_omp_zgemm", "compute/pzgemm.c:plasma_pzgemm", "core_blas/core_zgemm.c:plasma_core_zgemm"]}
{"id": "C16", "title": "Symmetric and Hermitian rank-k updates are exact and confined to one triangle", "statement": "plasma_zsyrk / plasma_zherk tile updates give alpha*op(A)*op(A)^T + beta*C (resp. ^H) on the selected triangle and leave the other triangle unchanged, for every schedule, including the case k = 0.", "quantifier": "both uplo, both trans, all n, k >= 0, all scalars, tile sizes and schedules", "why_tests_cant": "the degenerate k=0 path and the untouched triangle are not tested for all shapes", "anchors": ["compute/pzsyrk.c:plasma_pzsyrk", "compute/pzherk.c:plasma_pzherk", "compute/zherk.c:plasma_omp_zherk"]}
{"id": "C17", "title": "Symmetric and Hermitian multiplies read only the stored triangle", "statement": "The tile algorithms for plasma_zsymm / plasma_zhemm compute alpha*A*B+beta*C (or alpha*B*A+beta*C) where A is the symmetric (Hermitian) matrix defined by the selected triangle; the result does not depend on what is stored in the other triangle.", "quantifier": "both sides, both uplo, all sizes, contents, tile sizes and schedules", "why_tests_cant": "non-interference with the unused triangle is a statement about pairs of inputs", "anchors": ["compute/pzsymm.c:plasma_pzsymm", "compute/pzhemm.c:plasma_pzhemm"]}
{"id": "C18", "title": "Rank-2k updates are exact and confined to one triangle", "statement": "plasma_zsyr2k / plasma_zher2k tile updates give alpha*op(A)*op(B)^T + alpha*op(B)*op(A)^T + beta*C (resp. Hermitian with conj(alpha)) on the selected triangle and leave the other triangle unchanged.", "quantifier": "both uplo, both trans, all sizes, scalars, tile sizes and schedules", "why_tests_cant": "as for rank-k updates", "anchors": ["compute/pzsyr2k.c:plasma_pzsyr2k", "compute/pzher2k.c:plasma_pzher2k"]}
{"id": "C19", "title": "Triangular multiply in place is exact", "statement": "plasma_ztrmm overwrites B with alpha*op(A)*B or alpha*B*op(A), A being the triangle selected by uplo with unit diagonal if requested, although the tile algorithm overwrites B while still reading it.", "quantifier": "all sides, uplo, transposes, diag, sizes, scalars, contents, tile sizes and schedules", "why_tests_cant": "the in-place order of updates is correct only if no tile is overwritten before its last use, for every number of tiles", "anchors": ["compute/pztrmm.c:plasma_pztrmm"]}
{"id": "C20", "title": "Triangular solve is exact", "statement": "plasma_ztrsm overwrites B with the X satisfying op(A)*X=alpha*B or X*op(A)=alpha*B whenever the triangular A is nonsingular, for every scalar alpha.", "quantifier": "all sides, uplo, transposes, diag, sizes, scalars (including zero), contents, tile sizes and schedules", "why_tests_cant": "blocked back-substitution has to be right for every number of tiles; alpha = 0 is not tested in all branches", "anchors": ["compute/pztrsm.c:plasma_pztrsm", "core_blas/core_ztrsm.c:plasma_core_ztrsm"]}
{"id": "C21", "title": "Cholesky factorisation reproduces the matrix", "statement": "If plasma_zpotrf reports success, the triangle it leaves multiplied by its conjugate transpose equals the original Hermitian matrix, the other triangle is untouched, for every schedule.", "quantifier": "both uplo, all n, tile sizes, contents and admissible schedules", "why_tests_cant": "needs an invariant over the number of panels, and schedule independence", "anchors": ["compute/pzpotrf.c:plasma_pzpotrf", "core_blas/core_zpotrf.c:plasma_core_zpotrf"]}
{"id": "C22", "title": "Cholesky failure code is the order of the first bad leading matrix", "statement": "plasma_zpotrf returns 0 exactly when the Hermitian matrix is positive definite, and otherwise the order of the smallest leading matrix that is not positive definite, whatever the tile size and the schedule; nothing outside the matrix changes in either case.", "quantifier": "both uplo, all n, tile sizes, contents, admissible schedules", "why_tests_cant": "which diagonal block fails first, and whether a later failure can overwrite the code, depends on the schedule; the code must not depend on the tile size either", "anchors": ["compute/pzpotrf.c", "core_blas/core_zpotrf.c", "control/async.c:plasma_request_fail", "compute/zpotrf.c"]}
{"id": "C23", "title": "LU factorisation reproduces the row-permuted matrix", "statement": "If plasma_zgetrf succeeds, L*U of the factors it leaves equals the original matrix with the row interchanges recorded in ipiv applied, with ipiv in 1-based LAPACK form and each ipiv[i] >= i+1.", "quantifier": "all m, n, tile sizes, contents, panel contents and schedules", "why_tests_cant": "pivot bookkeeping across panels is an induction over the number of panels", "anchors": ["compute/pzgetrf.c:plasma_pzgetrf", "core_blas/core_zgetrf.c:plasma_core_zgetrf", "core_blas/core_zgeswp.c:plasma_core_zgeswp"]}
{"id": "C24", "title": "Row interchanges forward then backward are the identity", "statement": "Applying plasma_zgeswp with an ipiv and increment 1 and then with increment -1 restores the matrix exactly, for row-wise and column-wise swaps, and each application permutes rows (columns) as the corresponding product of transpositions of the full matrix, independent of tiling.", "quantifier": "all sizes, tile sizes, ipiv vectors with legal entries, contents", "why_tests_cant": "ranges over all pivot sequences", "anchors": ["compute/pzgeswp.c:plasma_pzgeswp", "core_blas/core_zgeswp.c:plasma_core_zgeswp"]}
{"id": "C25", "title": "Every reduction tree eliminates each tile exactly once and legally", "statement": "For every number of tile rows and columns and every level of concurrency, the list of kernels generated for tree-based QR triangularises and eliminates every tile below the diagonal exactly once, uses as pivot only a tile that is already triangular in that column and not yet eliminated, never touches a column before the previous column has been finished for that row, fits the operation array, and the generator terminates.", "quantifier": "all tile counts mt, nt and all thread counts", "why_tests_cant": "the generator is a greedy simulation whose bookkeeping can fail only for particular shape/thread combinations", "anchors": ["control/tree.c:plasma_tree_operations", "control/tree.c:plasma_tree_block_greedy", "control/tree.c:plasma_tree_flat_ts", "control/tree.c:plasma_tree_binary"]}
{"id": "C26", "title": "Tile norms equal matrix norms", "statement": "plasma_zlange returns, on every schedule and for every tile size, the max, one, infinity or Frobenius norm of the m x n matrix it is given; plasma_zlansy, plasma_zlanhe and plasma_zlantr that of the symmetric, Hermitian or trapezoidal matrix (stored or unit diagonal) whose triangle they are given; plasma_dzamax the largest |Re|+|Im| of every column or row. None changes the matrix, and no task reads or writes outside the workspace the driver allocates.", "quantifier": "all sizes, tile sizes and contents", "why_tests_cant": "a workspace stride mistake shows only for particular tile-count ratios and magnitudes", "anchors": ["compute/pzlange.c:plasma_pzlange", "core_blas/core_zlange.c"]}
{"id": "C27", "title": "Element-wise tile operations equal their LAPACK counterparts", "statement": "plasma_zgeadd, plasma_ztradd, plasma_zlacpy, plasma_zlaset and plasma_zlascl change exactly the elements selected by uplo, to the value LAPACK defines, in tile coordinates consistent across diagonal, interior and boundary tiles.", "quantifier": "all uplo, transposes, sizes, scalars, contents, tile sizes", "why_tests_cant": "boundary tiles of non-square matrices need every remainder combination", "anchors": ["compute/pzgeadd.c", "compute/pztradd.c", "compute/pzlacpy.c", "compute/pzlaset.c", "compute/pzlascl.c", "core_blas/core_zlacpy.c", "core_blas/core_ztradd.c", "core_blas/core_zlaset.c"]}
{"id": "C28", "title": "Bisection returns every requested eigenvalue once with its multiplicity", "statement": "For a symmetric tridiagonal matrix, plasma_dstevx2 returns, for the selected value interval, each distinct machine-representable eigenvalue location once, in increasing order, with multiplicities adding up to the number of eigenvalues in the interval, whatever the task schedule, and writes only inside the caller's arrays.", "quantifier": "all eigenvalue-count functions (monotone), all intervals, all schedules of the recursive tasks", "why_tests_cant": "recursion splits at data-dependent points; multiplicity at a range boundary is a corner case", "anchors": ["compute/zlaebz2.c:plasma_zlaebz2", "compute/zstevx2.c:plasma_zstevx2", "compute/zlaneg2.c:plasma_zlaneg2"]}
{"id": "C29", "title": "Mixed-precision iteration count tells the truth", "statement": "When the low-precision factorisation succeeds, the iteration output of plasma_zcgesv, plasma_zcposv and plasma_zcgbsv is k >= 0 exactly when the residual test first passed after k refinement steps (0 <= k <= 30) and X is then that iterate; it is -31 exactly when the test never passed, in which case X is the solution computed by the full-precision factorisation. A is overwritten only in the second case.", "quantifier": "all systems, whatever the called kernels compute (including NaN), all numbers of right-hand sides", "why_tests_cant": "which iteration converges depends on data; tests see only fast convergence", "anchors": ["compute/zcgesv.c:plasma_omp_zcgesv", "compute/zcposv.c:plasma_omp_zcposv"]}
{"id": "C30", "title": "LAPACK character constants round-trip", "statement": "Translating a LAPACK character option to a PLASMA constant and back gives a character equivalent to the original, distinct constants of one option never share a character, and characters that are not valid are reported as the invalid marker.", "quantifier": "all characters and all constants", "why_tests_cant": "a total statement over both tables and their inverse", "anchors": ["control/constants.c", "include/plasma_types.h:lapack_const"]}
{"id": "C31", "title": "Legal arguments are never refused by descriptor creation", "statement": "Once a driver has accepted its arguments, the descriptors it creates for its operands are created successfully, so that PlasmaErrorIllegalValue is never returned for legal arguments: for dense, packed triangular and band operands.", "quantifier": "all sizes, bandwidths and tile sizes", "why_tests_cant": "the refusal depends on the relation between bandwidth, order and the tile size chosen by tuning", "anchors": ["control/descriptor.c", "compute/zgbtrf.c", "compute/zpotrf.c", "compute/zhetrf.c", "compute/zgemm.c"]}
{"id": "C32", "title": "Every T factor has its own tile", "statement": "The descriptor created for the T factors of a QR or LQ factorisation of A gives each tile (m,n) of A an ib x nb tile of its own inside the allocated memory, and in tree mode a second one for the T factor of the triangle-triangle kernels, and no two of these overlap.", "quantifier": "all tile counts, tile sizes, inner blockings and both Householder modes", "why_tests_cant": "an overlap appears only for particular tile counts and is hidden when the overlapping factor is not needed any more", "anchors": ["control/descriptor.c:plasma_descT_create", "compute/pzgeqrf_tree.c", "compute/pzgelqf_tree.c"]}
{"id": "C33", "title": "Q is applied with the tree that was used to factorise", "statement": "plasma_zunmqr, plasma_zungqr and their LQ counterparts regenerate, from the tile shape of the reflectors they are given, the list of kernels that the tree-mode factorisation used, restricted to the tile columns holding those reflectors, for every number of reflectors k they accept and whatever the number of threads.", "quantifier": "all tile shapes, all numbers of reflectors, all numbers of threads", "why_tests_cant": "tests apply all reflectors, with the number of threads used for the factorisation", "anchors": ["control/tree.c:plasma_tree_operations", "compute/pzunmqr_tree.c", "compute/pzungqr_tree.c", "compute/pzgeqrf_tree.c"]}
{"id": "C34", "title": "Asynchronous calls take effect in program order", "statement": "When asynchronous routines are called one after the other in the same sequence, the result is as if each had completed before the next was called: a later routine that changes a matrix does not overtake an earlier one that only reads it.", "quantifier": "all pairs of routines and matrices, all schedules", "why_tests_cant": "the wrong order needs a particular schedule; with few tiles or a fast first routine it never shows", "anchors": ["compute/pzgeswp.c:plasma_pzgeswp", "compute/zgeswp.c:plasma_omp_zgeswp", "compute/zdesc2ge.c"]}
{"id": "C35", "title": "Positive definite systems are solved", "statement": "plasma_zpotrs, given the Cholesky factor in one triangle, replaces B by the X with (L*L^H)*X = B or (U^H*U)*X = B; plasma_zposv, when it returns 0, replaces B by the X with A*X = B and the triangle of A by its Cholesky factor, and returns 0 exactly when A is positive definite. The other triangle is neither read nor written, and nothing outside the matrices changes.", "quantifier": "all matrices, right hand sides, shapes, tile sizes, leading dimensions and schedules", "why_tests_cant": "the two solves share tiles with the factorization still running, so that a missing dependence shows only on rare schedules; tests compare with a tolerance for random well-conditioned matrices", "anchors": ["compute/zpotrs.c:plasma_zpotrs", "compute/zposv.c:plasma_zposv", "compute/pztrsm.c", "compute/pzpotrf.c"]}
{"id": "C36", "title": "General systems are solved from the LU factors", "statement": "plasma_zgetrs, given the factors L and U in one array and the pivots of P*A = L*U, replaces B by the X with op(A)*X = B for op the identity, the transposition and the conjugate transposition. Nothing else changes.", "quantifier": "all matrices, pivots, right hand sides, shapes, tile sizes, leading dimensions and schedules", "why_tests_cant": "the interchange of rows names only some of the tiles it touches as changed; whether the solves before and after it are ordered shows only for three or more tile rows and rare schedules", "anchors": ["compute/zgetrs.c:plasma_zgetrs", "compute/zgetrs.c:plasma_omp_zgetrs", "compute/pzgeswp.c", "compute/pztrsm.c"]}
{"id": "C37", "title": "Inverses of triangular and positive definite matrices", "statement": "plasma_ztrtri replaces a triangular matrix in one triangle of an array by its inverse; it returns zero exactly when no diagonal element is zero, and otherwise the position of a zero diagonal element. plasma_zlauum replaces a triangular factor with real diagonal by the triangle of L^H*L or U*U^H. plasma_zpotri, given a Cholesky factor, replaces it by the triangle of the inverse of the factored matrix; plasma_zpoinv does so from the positive definite matrix itself. On success the other triangle keeps its contents, and in any case everything outside the matrix.", "quantifier": "all matrices, orders, tile sizes, leading dimensions and schedules", "why_tests_cant": "each stage works in place on tiles that other tasks still read, so a missing dependence shows only on rare schedules; tests use random regular matrices and a tolerance", "anchors": ["compute/ztrtri.c:plasma_ztrtri", "compute/pztrtri.c:plasma_pztrtri", "compute/zlauum.c:plasma_zlauum", "compute/pzlauum.c:plasma_pzlauum", "compute/zpotri.c:plasma_zpotri", "compute/zpoinv.c:plasma_zpoinv"]}
{"id": "C38", "title": "The QR factorization is one", "statement": "plasma_zgeqrf (flat Householder mode) leaves in the upper trapezoid of A the factor R of A = Q*R for a unitary matrix Q, and changes nothing outside A and the array of T factors it allocates.", "quantifier": "all matrices, shapes, tile sizes, inner block sizes, leading dimensions and schedules", "why_tests_cant": "the diagonal tile of a column is shared by a chain of tasks that read its upper and lower parts, so a missing dependence shows only on rare schedules; tests use random matrices and a tolerance", "anchors": ["compute/zgeqrf.c:plasma_zgeqrf", "compute/zgeqrf.c:plasma_omp_zgeqrf", "compute/pzgeqrf.c:plasma_pzgeqrf", "core_blas/core_zgeqrt.c:plasma_core_zgeqrt", "core_blas/core_ztsqrt.c:plasma_core_ztsqrt", "core_blas/core_zunmqr.c", "core_blas/core_ztsmqr.c"]}
{"id": "C39", "title": "plasma_zunmqr multiplies by the unitary factor of the factorization", "statement": "plasma_zunmqr, given the min(m,n) reflectors and the T factors left by plasma_zgeqrf, replaces C by Q*C, Q^H*C, C*Q or C*Q^H with one and the same unitary Q for which A = Q*R, and changes nothing else.", "quantifier": "all matrices A and C, shapes, sides, transpositions, tile sizes, inner block sizes, leading dimensions and schedules", "why_tests_cant": "the block reflectors must be applied in one of two opposite orders at three levels of blocking; for symmetric shapes or a single tile a wrong order can go unnoticed", "anchors": ["compute/zunmqr.c:plasma_zunmqr", "compute/zunmqr.c:plasma_omp_zunmqr", "compute/pzunmqr.c:plasma_pzunmqr", "core_blas/core_zunmqr.c:plasma_core_zunmqr", "core_blas/core_ztsmqr.c:plasma_core_ztsmqr", "core_blas/core_zparfb.c:plasma_core_zparfb"]}
{"id": "C40", "title": "Least squares problems are solved from the QR factors", "statement": "For an m x n matrix A with m >= n and independent columns, plasma_zgeqrs, given the factored A and the T factors left by plasma_zgeqrf, replaces the first n rows of each column b of B by the x that minimises the norm of b - A*x; the norm of rows n..m-1 is then the norm of the residual. Nothing else changes.", "quantifier": "all matrices of full column rank, right hand sides, shapes, tile sizes, inner block sizes, leading dimensions and schedules", "why_tests_cant": "the triangular solve works on views of tiles the multiplication by Q^H may still be changing; tests use random matrices and look at one residual with a tolerance", "anchors": ["compute/zgeqrs.c:plasma_zgeqrs", "compute/zgeqrs.c:plasma_omp_zgeqrs", "compute/pzunmqr.c", "compute/pztrsm.c", "control/descriptor.c:plasma_desc_view"]}
{"id": "C41", "title": "plasma_zungqr generates the columns of the unitary factor", "statement": "plasma_zungqr, given k <= n reflectors and the T factors left by plasma_zgeqrf, writes the first n columns of the unitary Q with A = Q*R into the m x n matrix Q, and changes nothing else.", "quantifier": "all matrices, shapes, numbers of reflectors, tile sizes, inner block sizes, leading dimensions and schedules", "why_tests_cant": "tests generate as many columns as there are reflectors; the products skip tiles that are known to be zero, which must be right at every shape", "anchors": ["compute/zungqr.c:plasma_zungqr", "compute/zungqr.c:plasma_omp_zungqr", "compute/pzungqr.c:plasma_pzungqr"]}
{"id": "C42", "title": "The LQ factorization is one", "statement": "plasma_zgelqf (flat Householder mode) leaves in the lower trapezoid of A the factor L of A = L*Q for a unitary matrix Q, and changes nothing outside A and the array of T factors it allocates.", "quantifier": "all matrices, shapes, tile sizes, inner block sizes, leading dimensions and schedules", "why_tests_cant": "the diagonal tile of a row is shared by a chain of tasks that read its lower and upper parts, so a missing dependence shows only on rare schedules; tests use random matrices and a tolerance", "anchors": ["compute/zgelqf.c:plasma_zgelqf", "compute/zgelqf.c:plasma_omp_zgelqf", "compute/pzgelqf.c:plasma_pzgelqf", "core_blas/core_zgelqt.c:plasma_core_zgelqt", "core_blas/core_ztslqt.c:plasma_core_ztslqt", "core_blas/core_zunmlq.c", "core_blas/core_ztsmlq.c"]}
{"id": "C43", "title": "plasma_zunmlq multiplies by the unitary factor of the LQ factorization", "statement": "plasma_zunmlq, given the min(m,n) reflectors and the T factors left by plasma_zgelqf, replaces C by Q*C, Q^H*C, C*Q or C*Q^H with one and the same unitary Q for which A = L*Q, and changes nothing else.", "quantifier": "all matrices A and C, shapes, sides, transpositions, tile sizes, inner block sizes, leading dimensions and schedules", "why_tests_cant": "LQ stores the conjugated reflectors by rows, so the order of application and the transposition of every block are the reverse of those of QR at three levels of blocking; symmetric shapes or a single tile hide a wrong one", "anchors": ["compute/zunmlq.c:plasma_zunmlq", "compute/zunmlq.c:plasma_omp_zunmlq", "compute/pzunmlq.c:plasma_pzunmlq", "core_blas/core_zunmlq.c:plasma_core_zunmlq", "core_blas/core_ztsmlq.c:plasma_core_ztsmlq", "core_blas/core_zparfb.c:plasma_core_zparfb"]}
{"id": "C44", "title": "Minimum norm solutions are computed from the LQ factors", "statement": "For an m x n matrix A with m <= n and independent rows, plasma_zgelqs, given the factored A and the T factors left by plasma_zgelqf, replaces each column of the n x nrhs matrix B, whose first m rows are b, by the solution of A*x = b of least norm. Nothing else changes.", "quantifier": "all matrices of full row rank, right hand sides, shapes, tile sizes, inner block sizes, leading dimensions and schedules", "why_tests_cant": "the rows below the right hand side must be cleared and solved with views of tiles that other tasks still use; tests use random matrices, look at one residual with a tolerance and cannot see that the norm is not the least", "anchors": ["compute/zgelqs.c:plasma_zgelqs", "compute/zgelqs.c:plasma_omp_zgelqs", "compute/pzunmlq.c", "compute/pztrsm.c", "compute/pzlaset.c", "control/descriptor.c:plasma_desc_view"]}
{"id": "C45", "title": "plasma_zunglq generates the rows of the unitary factor", "statement": "plasma_zunglq, given k <= m reflectors and the T factors left by plasma_zgelqf, writes the first m rows of the unitary Q with A = L*Q into the m x n matrix Q, and changes nothing else.", "quantifier": "all matrices, shapes, numbers of reflectors, tile sizes, inner block sizes, leading dimensions and schedules", "why_tests_cant": "tests generate as many rows as there are reflectors; the products skip tiles that are known to be zero, which must be right at every shape", "anchors": ["compute/zunglq.c:plasma_zunglq", "compute/zunglq.c:plasma_omp_zunglq", "compute/pzunglq.c:plasma_pzunglq"]}
{"id": "C46", "title": "plasma_zgels solves over- and underdetermined systems of full rank", "statement": "For an m x n matrix A of full rank plasma_zgels leaves in each column of B: for m >= n the least squares solution of A*x = b, with a vector as long as the residual in the rows below, or with conjugate transposition the minimum norm solution of A^H*x = b; for m < n the minimum norm solution of A*x = b, or the least squares solution of A^H*x = b with the residual below it. A is overwritten by its QR or LQ factorization. Nothing else changes.", "quantifier": "all matrices of full rank, right hand sides, both transpositions, shapes including empty ones, tile sizes, inner block sizes, leading dimensions and schedules", "why_tests_cant": "factorization, multiplication by Q, clearing and triangular solve of the four cases run in one region of tasks without a barrier between them, so a missing dependence shows only on rare schedules", "anchors": ["compute/zgels.c:plasma_zgels", "compute/zgels.c:plasma_omp_zgels", "compute/pzgeqrf.c", "compute/pzgelqf.c", "compute/pzunmqr.c", "compute/pzunmlq.c", "compute/pztrsm.c", "compute/pzlaset.c"]}
{"id": "C47", "title": "Address arithmetic of tile storage does not overflow", "statement": "For every matrix whose dimensions are ints, whose tiles have fewer than 2^31 elements and whose storage has fewer than 2^64 bytes, the descriptor set up by the library, the number of bytes it allocates and the byte offset it computes for every stored tile are the exact values: no 32-bit int operation overflows and no size_t operation wraps. For band storage this is claimed if the sums of the bandwidths with the number of rows, and of twice the lower and once the upper bandwidth with the tile sides, are ints too.", "quantifier": "all dimensions, tile sizes, submatrices, element types, and general, packed triangular and band storage", "why_tests_cant": "overflow needs matrices of tens of gigabytes, far above what tests allocate, and is undefined behaviour that often goes unnoticed", "anchors": ["include/plasma_descriptor.h:plasma_tile_addr_general", "include/plasma_descriptor.h:plasma_tile_addr_triangle", "include/plasma_descriptor.h:plasma_element_size", "control/descriptor.c:plasma_desc_general_create", "control/descriptor.c:plasma_desc_general_init", "control/descriptor.c:plasma_desc_triangular_create", "control/descriptor.c:plasma_desc_triangular_init", "include/plasma_descriptor.h:plasma_tile_addr_general_band", "control/descriptor.c:plasma_desc_general_band_create", "control/descriptor.c:plasma_desc_general_band_init", "control/descriptor.c:plasma_desc_general_band_check"]}
{"id": "C48", "title": "Band matrices keep their elements between LAPACK band storage and tiles", "statement": "Translating the triangle of a Hermitian band matrix from LAPACK band storage puts every element of the band at its place in the tiles and zero at every other place of the tiles that hold the band; translating back writes every element of the band of the user's array and no other memory. For general band matrices in an array with 2*kl+ku+1 rows the same holds with kl+ku superdiagonals.", "quantifier": "all orders, band widths, tile sizes, leading dimensions that are large enough, contents and schedules", "why_tests_cant": "whether a diagonal lies in a tile depends on the remainders of order and band width by the tile size; tests allocate more rows than LAPACK asks for and fill them with zeros", "anchors": ["compute/pzpb2desc.c:plasma_pzpb2desc", "compute/pzdesc2pb.c:plasma_pzdesc2pb", "core_blas/core_zlacpy_band.c:plasma_core_zlacpy_lapack2tile_band", "core_blas/core_zlacpy_band.c:plasma_core_zlacpy_tile2lapack_band", "compute/zgbtrf.c:plasma_zgbtrf", "control/descriptor.c:plasma_desc_general_band_init"]}
{"id": "C49", "title": "plasma_zpbtrf factors Hermitian band matrices and names the first leading matrix that is not positive definite", "statement": "If plasma_zpbtrf returns 0, the band of the array holds a triangular band matrix T whose product T*T^H (lower) or T^H*T (upper) is the Hermitian band matrix given; nothing outside the band changes. The value returned is 0 exactly for positive definite matrices and otherwise the order of the smallest leading matrix that is not positive definite. Every kd >= 0 is accepted.", "quantifier": "all orders, band widths, tile sizes, leading dimensions, contents and schedules", "why_tests_cant": "which updates may be left out depends on the position of the band in the tiles; the order of failures depends on the schedule", "anchors": ["compute/zpbtrf.c:plasma_zpbtrf", "compute/zpbtrf.c:plasma_omp_zpbtrf", "compute/pzpbtrf.c:plasma_pzpbtrf", "core_blas/core_zpotrf.c:plasma_core_omp_zpotrf"]}
{"id": "C50", "title": "plasma_zpbtrs solves systems with the Cholesky factor of a band matrix", "statement": "If the band of the array holds a triangular band matrix T with nonzero diagonal, plasma_zpbtrs returns success and replaces B by the X with T*T^H*X = B (lower) or T^H*T*X = B (upper), and changes nothing else. Every n, kd, nrhs >= 0 is accepted.", "quantifier": "all orders, band widths, numbers of right hand sides, tile sizes, leading dimensions, contents and schedules", "why_tests_cant": "which tiles of B an update reaches depends on the remainders of order and band width by the tile size; the two solves run without a barrier between them", "anchors": ["compute/zpbtrs.c:plasma_zpbtrs", "compute/zpbtrs.c:plasma_omp_zpbtrs", "compute/pztbsm.c:plasma_pztbsm"]}
{"id": "C51", "title": "plasma_zpbsv solves Hermitian positive definite band systems", "statement": "If plasma_zpbsv returns 0, B holds X with A*X = B and the array holds the triangular band factor of A. The value returned is 0 exactly for positive definite A and otherwise the order of the smallest leading matrix that is not positive definite. Nothing outside the band and B changes. This holds for every number of right hand sides, also none.", "quantifier": "all orders, band widths, numbers of right hand sides, tile sizes, leading dimensions, contents and schedules", "why_tests_cant": "factorization and two solves run in one region of tasks; a solve that starts before the tiles it reads are factored is wrong only on rare schedules, and failing matrices are hardly tested", "anchors": ["compute/zpbsv.c:plasma_zpbsv", "compute/zpbsv.c:plasma_omp_zpbsv", "compute/pzpbtrf.c:plasma_pzpbtrf", "compute/pztbsm.c:plasma_pztbsm"]}
{"id": "C52", "title": "plasma_zlangb returns the norm of a general band matrix", "statement": "plasma_zlangb returns the max, one, infinity or Frobenius norm of the m x n matrix with kl subdiagonals and ku superdiagonals stored in LAPACK band storage in an array of at least kl+ku+1 rows, for all m, n, kl, ku >= 0.", "quantifier": "all matrices, shapes, band widths, tile sizes, leading dimensions and schedules", "why_tests_cant": "the test fills an array with many more rows than required and puts the diagonal in another row than LAPACK does", "anchors": ["compute/zlangb.c:plasma_zlangb", "compute/zlangb.c:plasma_omp_zlangb", "compute/pzlangb.c:plasma_pzlangb", "compute/pzpb2desc.c:plasma_pzpb2desc"]}
{"id": "C53", "title": "plasma_zgetri inverts a general matrix from its LU factorization", "statement": "If the array and ipiv hold an LU factorization P*A = L*U, plasma_zgetri returns 0 exactly if U has no zero on its diagonal and then leaves the inverse of A in the array; otherwise it returns the number of a zero diagonal element of U. plasma_zgetri_aux, given L and the inverse of U, leaves the inverse of L*U. Nothing outside the n x n part of the array changes.", "quantifier": "all fields, orders, tile sizes, leading dimensions, contents, pivot vectors and schedules", "why_tests_cant": "inversion of U, multiplication by the inverse of L through a workspace used again for every tile column, and interchange of columns run in one region of tasks without a barrier; the interchange waits for the products only through chains of dependences", "anchors": ["compute/zgetri.c:plasma_zgetri", "compute/zgetri.c:plasma_omp_zgetri", "compute/zgetri_aux.c:plasma_zgetri_aux", "compute/pzgetri_aux.c:plasma_pzgetri_aux", "compute/pzgeswp.c:plasma_pzgeswp", "compute/pztrtri.c:plasma_pztrtri"]}
{"id": "C54", "title": "plasma_zgesv solves general systems", "statement": "plasma_zgesv returns 0 if A is nonsingular; then B holds X with A*X = B for the A and B passed in, A and ipiv hold an LU factorization P*A = L*U with U regular, and nothing but A, B and the first n entries of ipiv changes. For a singular A it returns a positive code and accesses nothing outside of its arguments.", "quantifier": "all fields, orders, numbers of right hand sides, tile sizes, inner block sizes, numbers of panel threads, leading dimensions, contents and schedules", "why_tests_cant": "factorization, interchanges and two solves run in one region of tasks with translations; an update that overtakes the translation of a tile, or an interchange that uses pivots of a panel that was skipped, happens only on rare schedules or for singular matrices, which the tests do not use", "anchors": ["compute/zgesv.c:plasma_zgesv", "compute/zgesv.c:plasma_omp_zgesv", "compute/pzgetrf.c:plasma_pzgetrf", "compute/pzgeswp.c:plasma_pzgeswp", "compute/pztrsm.c:plasma_pztrsm"]}
{"id": "C55", "title": "plasma_zgeinv inverts general matrices", "statement": "For a nonsingular square matrix plasma_zgeinv returns 0 and leaves its inverse in the array; nothing but the array and the first n entries of ipiv changes. For every other matrix the value returned is not 0.", "quantifier": "all fields, orders, tile sizes, inner block sizes, numbers of panel threads, leading dimensions, contents and schedules", "why_tests_cant": "factorization, inversion of U, multiplication by the inverse of L and interchange of columns run in one region of tasks with the translations; what overtakes what depends on the schedule and on the number of tile rows, and the tests use square nonsingular matrices only", "anchors": ["compute/zgeinv.c:plasma_zgeinv", "compute/zgeinv.c:plasma_omp_zgeinv", "compute/pzgetrf.c:plasma_pzgetrf", "compute/pztrtri.c:plasma_pztrtri", "compute/pzgetri_aux.c:plasma_pzgetri_aux", "compute/pzgeswp.c:plasma_pzgeswp"]}
{"id": "C56", "title": "plasma_zlag2c and plasma_clag2z convert matrices between the precisions", "statement": "plasma_zlag2c returns 0 exactly if every element of the m x n matrix is in the range of single precision, and then the second array holds the converted elements; otherwise it returns 1 and each element of the second array is either converted or as it was. plasma_clag2z returns success and leaves the converted elements. Neither routine changes its input matrix or anything else.", "quantifier": "all matrices, shapes, tile sizes, leading dimensions, conversion functions and schedules", "why_tests_cant": "after an overflow some tiles have been converted and copied back and others have not, which depends on the schedule; tests use numbers in range only", "anchors": ["compute/zlag2c.c:plasma_zlag2c", "compute/zlag2c.c:plasma_omp_zlag2c", "compute/pzlag2c.c:plasma_pzlag2c", "core_blas/core_zlag2c.c:plasma_core_omp_zlag2c", "compute/clag2z.c:plasma_clag2z", "compute/clag2z.c:plasma_omp_clag2z", "compute/pclag2z.c:plasma_pclag2z", "core_blas/core_clag2z.c:plasma_core_omp_clag2z"]}
{"id": "C57", "title": "A failed factorization leaves the right hand sides alone", "statement": "If plasma_zposv or plasma_zpbsv returns anything but 0 for legal arguments, the matrix B of right hand sides is exactly as it was before the call, and so is everything else except the triangle (the band) of A that was to be factored.", "quantifier": "all matrices, shapes, tile sizes, numbers of right hand sides, triangles, bandwidths and schedules", "why_tests_cant": "the solves have been submitted before the factorization fails, and whether a tile of the solution is written back before the failure is noticed depends on the schedule; tests look at B after successful calls only", "anchors": ["compute/zposv.c:plasma_zposv", "compute/zpbsv.c:plasma_zpbsv", "compute/pztrsm.c:plasma_pztrsm", "compute/pztbsm.c:plasma_pztbsm", "compute/pzpotrf.c:plasma_pzpotrf", "compute/pzpbtrf.c:plasma_pzpbtrf"]}
{"id": "C58", "title": "plasma_zgbmm multiplies with a band matrix", "statement": "For every A that is zero outside of its band plasma_zgbmm returns success and leaves alpha*op(A)*op(B)+beta*C in C, also where op(A) has no rows or columns of the band in a block row and for k = 0; nothing but C changes.", "quantifier": "all rings with conjugation, scalars, shapes, bandwidths, transpositions, tile sizes, leading dimensions and schedules", "why_tests_cant": "only the tiles that meet the band are copied and multiplied, and which ones those are depends on how the bandwidths, the tile size and the transposition meet; a tile too few shows only for few combinations", "anchors": ["compute/zgbmm.c:plasma_zgbmm", "compute/zgbmm.c:plasma_omp_zgbmm", "compute/pzgemm.c:plasma_pzgemm", "compute/pzgb2desc.c:plasma_pzgb2desc", "compute/zgb2desc.c:plasma_omp_zgb2desc"]}
{"id": "C59", "title": "plasma_zgbset zeroes a matrix outside of its band", "statement": "For legal bandwidths plasma_zgbset sets every element more than kl below or more than ku above the diagonal to zero and leaves the elements of the band, the padding of the array and everything else as they are.", "quantifier": "all shapes, bandwidths, tile sizes, leading dimensions, contents and schedules", "why_tests_cant": "the routine only prepares input for the test of plasma_zgbmm and nothing checks its result; its calls walk along diagonals with a leading dimension lda+1, which is right for some shapes and leading dimensions only", "anchors": ["compute/zgbset.c:plasma_zgbset", "compute/zlaset.c:plasma_zlaset"]}
{"id": "C60", "title": "plasma_zcposv returns a solution that passed the documented test", "statement": "If plasma_zcposv returns 0 for legal arguments then either *iter is the number, between 0 and 30, of refinements done and for every right hand side the largest element of the residual B - A X is at most sqrt(n)*eps*Anorm times the largest element of X, where Anorm is the infinity norm of the Hermitian matrix stored in the referenced triangle, or *iter is -31 and X is the solution from the full precision factorization. Elements of the other triangle of A do not matter, and nothing but X changes.", "quantifier": "all matrices, sizes, numbers of right hand sides, tile sizes, leading dimensions, low precision formats and solvers, and schedules", "why_tests_cant": "the norm of A and the largest elements of X and R share one workspace, so a wrong norm needs a particular order of tasks of different tiles and then only loosens the test; tests check the final error, which is usually good anyway", "anchors": ["compute/zcposv.c:plasma_zcposv", "compute/zcposv.c:plasma_omp_zcposv", "compute/zcposv.c:conv", "compute/pzlanhe.c:plasma_pzlanhe", "compute/pdzamax.c:plasma_pdzamax", "compute/pzlag2c.c:plasma_pzlag2c", "compute/pclag2z.c:plasma_pclag2z", "compute/pzgeadd.c:plasma_pzgeadd"]}
{"id": "C61", "title": "plasma_zgbtrs solves systems from the LU factors of a band matrix", "statement": "If the array holds factors as plasma_zgbtrf lays them out, with nonzero pivots, and ipiv the interchanges, plasma_zgbtrs returns success and replaces B by X with op(A)*X = B, where A is the product P_0 L_0 P_1 L_1 ... U the factors stand for and op the identity, the transposition or the conjugate transposition; nothing else changes.", "quantifier": "all fields with conjugation, factors, interchanges, sizes, bandwidths, numbers of right hand sides, tile sizes, leading dimensions and schedules", "why_tests_cant": "the row interchanges span the right hand sides of several tile rows and are only ordered by taskwaits and by declarations on one tile; a missing order shows on some schedules only, and the tests never solve with a transposed matrix", "anchors": ["compute/zgbtrs.c:plasma_zgbtrs", "compute/zgbtrs.c:plasma_omp_zgbtrs", "compute/pztbsm.c:plasma_pztbsm", "core_blas/core_zgeswp.c:plasma_core_zgeswp", "compute/pzpb2desc.c:plasma_pzpb2desc"]}
{"id": "C62", "title": "plasma_zgbtrf factors a general band matrix", "statement": "For a square matrix with a band narrower than the matrix, in an array whose leading dimension leaves room for the tiles (that of the tests does unless kl = ku = 0) and with zeros in the padding that is read, plasma_zgbtrf returns 0 and leaves factors and row interchanges that stand for the matrix in the form plasma_zgbtrs solves with, with nonzero diagonal of U, interchanges within the rows the band reaches and pivots that no candidate exceeds; or it returns c > 0, column c of the matrix depends on the columns before it, and the array is unchanged. Nothing else but ipiv changes.", "quantifier": "all fields, comparisons of absolute values, matrices, orders, bandwidths, tile sizes, inner block sizes, numbers of panel threads, leading dimensions and schedules", "why_tests_cant": "rows are interchanged across tiles but the tasks name only two tiles of a column in their depend clauses, so the order of updates of the other tiles rests on a chain through further tasks; whether elements fill the tiles outside of the band depends on the pivots", "anchors": ["compute/zgbtrf.c:plasma_zgbtrf", "compute/zgbtrf.c:plasma_omp_zgbtrf", "compute/pzgbtrf.c:plasma_pzgbtrf", "core_blas/core_zgetrf.c:plasma_core_zgetrf", "core_blas/core_zgeswp.c:plasma_core_zgeswp", "compute/pzpb2desc.c:plasma_pzpb2desc", "compute/pzdesc2pb.c:plasma_pzdesc2pb"]}
{"id": "C63", "title": "plasma_zgbsv solves systems with a general band matrix", "statement": "For a square matrix as in C62 and at least one right hand side, plasma_zgbsv returns 0, replaces B by X with A*X = B and leaves the factorization of C62 in the array and in ipiv; or it returns c > 0, column c of the matrix depends on the columns before it, and A and B are unchanged. Nothing else but ipiv changes.", "quantifier": "all fields, comparisons of absolute values, matrices, orders, bandwidths, numbers of right hand sides, tile sizes, inner block sizes, numbers of panel threads, leading dimensions and schedules", "why_tests_cant": "the solve reads ipiv and the whole lower band in the thread that creates the tasks, so it is only right behind the taskwait, and a failure in the factorization must keep every later task from touching B; tests see a failure only with one zero column and one schedule", "anchors": ["compute/zgbsv.c:plasma_zgbsv", "compute/zgbsv.c:plasma_omp_zgbsv", "compute/pzgbtrf.c:plasma_pzgbtrf", "compute/pztbsm.c:plasma_pztbsm", "compute/pzdesc2pb.c:plasma_pzdesc2pb", "compute/pzdesc2ge.c:plasma_pzdesc2ge"]}
{"id": "C64", "title": "The band left by the reduction of plasma_zgesdd is copied exactly to band storage", "statement": "When plasma_zgesdd has reduced the matrix to a band of nb diagonals next to the main one (above it if m >= n, else below), the band storage handed to the bulge chasing, 3*nb+1 rows and min(m,n) columns, holds in rows nb to 2*nb the elements of that band, each in the row of its diagonal, and zeros everywhere else. Nothing outside of the array changes, and the elements of the tiles outside of the band (Householder vectors) are not copied.", "quantifier": "all shapes m x n, tile sizes, matrix contents and execution orders of the copy tasks; for the copy itself every leading dimension larger than nb", "why_tests_cant": "diagonal tiles and their neighbours are copied as triangles with a leading dimension one less than that of the storage, to overlapping address ranges named by distinct pointers; a wrong offset or a race shows for particular shapes and last tiles only", "anchors": ["compute/pzgecpy_tile2lapack_band.c:plasma_pzgecpy_tile2lapack_band", "core_blas/core_zlacpy.c:plasma_core_omp_zlacpy", "compute/zgesdd.c:plasma_omp_zgesdd"]}
{"id": "C65", "title": "The single precision band matrix that plasma_zcgbsv factors is the rounded matrix A", "statement": "For band matrices the conversion to single precision fails (status 1) iff an element in a tile within ceil(kl/nb) tiles below or ceil(ku/nb) tiles right of the diagonal is out of range; otherwise each of these elements, and so the whole band, is rounded, and nothing else changes; the conversion back covers the same elements. The factorization that plasma_zcgbsv runs next depends on A only, not on what the memory of the single precision matrix contained before. (The last sentence is false of the code.)", "quantifier": "all shapes, bandwidths, tile sizes, contents, rounding functions and schedules of the conversion", "why_tests_cant": "the tiles left out hold zeros when the operating system hands out fresh pages, so that tests pass; they matter only if the memory is reused and a pivot makes rows fill in beyond the last tile of the band", "anchors": ["compute/pzlag2c.c:plasma_pzlag2c", "compute/pclag2z.c:plasma_pclag2z", "compute/zcgbsv.c:plasma_omp_zcgbsv", "compute/zcgbsv.c:plasma_zcgbsv", "control/descriptor.c:plasma_desc_general_band_create", "compute/pzgbtrf.c:plasma_pzgbtrf"]}
{"id": "C66", "title": "The norm computations of the mixed precision drivers stay inside of their workspace", "statement": "plasma_zcgesv, plasma_zcposv and plasma_zcgbsv allocate one workspace for the infinity norm of A and the column norms of X and R. No task that computes one of these norms reads or writes outside of it.", "quantifier": "all orders n, numbers of right-hand sides, tile sizes, bandwidths, and all tasks of the norm computations", "why_tests_cant": "the size is computed as size_t but passed through a function of int arguments; the result is wrong only for sizes of 2^31 or more, with n around 741000 for a band matrix and the default tile size", "anchors": ["compute/zcgesv.c:plasma_zcgesv", "compute/zcposv.c:plasma_zcposv", "compute/zcgbsv.c:plasma_zcgbsv", "include/plasma_internal.h:imax", "compute/pzlange.c:plasma_pzlange", "compute/pzlanhe.c:plasma_pzlanhe", "compute/pzlangb.c:plasma_pzlangb", "compute/pdzamax.c:plasma_pdzamax"]}
{"id": "C67", "title": "The norms that plasma_zcgesv computes do not interfere in their workspace", "statement": "In plasma_zcgesv the task that reduces the row sums of A in the workspace to the norm of A, and the tasks that later store the largest entries of X in the same workspace, are ordered by their depend clauses, directly or through other tasks.", "quantifier": "all orders, numbers of right-hand sides and tile sizes, and all tasks submitted between the two that name neither the workspace nor the norm", "why_tests_cant": "the tasks between the two are long compared with the reduction, so that the wrong order practically never occurs in a test; with one tile the two name the same address", "anchors": ["compute/zcgesv.c:plasma_omp_zcgesv", "compute/pzlange.c:plasma_pzlange", "compute/pdzamax.c:plasma_pdzamax", "core_blas/core_dzamax.c:plasma_core_omp_dzamax", "core_blas/core_zlange.c:plasma_core_omp_zlange"]}
{"id": "C68", "title": "The Householder vectors of the bulge chasing in plasma_zgesdd have room and do not overlap", "statement": "Each vector that a step of the bulge chasing reads or writes, with its scalar factor and its entry of T, is stored inside of the arrays that plasma_zgesdd allocates, whether or not singular vectors are wanted; if they are, two different vectors have different factors and do not overlap.", "quantifier": "all orders, tile sizes, block sizes V, sweeps and steps", "why_tests_cant": "the positions come from a sum of rounded quotients and the number of blocks from another one; an error shows only for orders in particular residue classes, and as heap corruption", "anchors": ["include/bulge.h:findVTpos", "include/bulge.h:findVTsiz", "compute/zgesdd.c:plasma_omp_zgesdd", "compute/pzgbbrd_static.c:plasma_pzgbbrd_static", "core_blas/core_zgbtype1cb.c:plasma_core_zgbtype1cb", "core_blas/core_zgbtype2cb.c:plasma_core_zgbtype2cb", "core_blas/core_zgbtype3cb.c:plasma_core_zgbtype3cb"]}
{"id": "C69", "title": "The block reflectors of the bulge chasing in plasma_zgesdd contain all of its Householder vectors", "statement": "Each call of zlarft in pzlarft_blgtrd reads vectors and factors and writes a block of T inside of the allocated arrays; each vector of the bulge chasing is a column of a call that is made, with its diagonal, its length and its factor in place; two calls write disjoint blocks of T.", "quantifier": "all orders, tile sizes above 1, block sizes V > 0, sweeps and steps", "why_tests_cant": "the loop computes the number of tiles of a column and the shape of a block by other formulas than the bulge chasing that stored the vectors; a vector left out shows only as a lost rotation for orders in particular residue classes, and the calls are shared out to threads without synchronization", "anchors": ["compute/pzlarft_blgtrd.c:plasma_pzlarft_blgtrd", "include/bulge.h:findVTpos", "include/bulge.h:findVTsiz", "compute/zgesdd.c:plasma_omp_zgesdd"]}
