{
 "claims": [
  {
   "property": "C01",
   "status": "proved",
   "theorems": [
    "C01_general_storage",
    "C01_general_storage_submatrix"
   ],
   "note": ""
  },
  {
   "property": "C02",
   "status": "proved",
   "theorems": [
    "C02_triangular_storage",
    "C02_nonsquare_accepted_refuted"
   ],
   "note": "Square matrices, as every driver creates them. The library also accepts non-square ones, for which the property fails (refuted theorem)."
  },
  {
   "property": "C03",
   "status": "proved",
   "theorems": [
    "C03_general_band_storage",
    "C03_hermitian_band_storage"
   ],
   "note": ""
  },
  {
   "property": "C04",
   "status": "proved",
   "theorems": [
    "C04_tiles_partition",
    "C04_tiles_partition_view"
   ],
   "note": ""
  },
  {
   "property": "C05",
   "status": "proved",
   "theorems": [
    "C05_ge2desc",
    "C05_desc2ge",
    "C05_round_trip"
   ],
   "note": ""
  },
  {
   "property": "C06",
   "status": "partial",
   "theorems": [
    "C06_tr2desc",
    "C06_desc2tr",
    "C06_round_trip",
    "C06_other_triangle_refuted"
   ],
   "note": "Round trip and both translations proved. The stronger reading, that copying back never writes the other triangle whatever the tiles contain, is false: diagonal tiles are written back whole (refuted theorem)."
  },
  {
   "property": "C07",
   "status": "proved",
   "theorems": [
    "C07_create_passes_check",
    "C07_checked_is_inside",
    "C07_negative_corner_refuted",
    "C07_view_same_memory"
   ],
   "note": "plasma_desc_check does not look at the sign of the corner (refuted theorem); every other part holds."
  },
  {
   "property": "C08",
   "status": "partial",
   "theorems": [
    "C08_band_check_partial",
    "C08_band_check_too_weak_refuted",
    "C08_lower_rows_unchecked_refuted"
   ],
   "note": "The property is false of the code: the check counts LAPACK rows instead of tile rows for general and upper storage and checks nothing for lower storage. Proved: what the check does guarantee."
  },
  {
   "property": "C09",
   "status": "proved",
   "theorems": [
    "C09_get",
    "C09_value",
    "C09_codes"
   ],
   "note": ""
  },
  {
   "property": "C10",
   "status": "proved",
   "theorems": [
    "C10_compute",
    "C10_erase"
   ],
   "note": "The tuner is disabled on every path because the handle it tests is never stored; what it would compute is left arbitrary."
  },
  {
   "property": "C11",
   "status": "proved",
   "theorems": [
    "C11_last_failure",
    "C11_sticky",
    "C11_request",
    "C11_success"
   ],
   "note": ""
  },
  {
   "property": "C12",
   "status": "partial",
   "theorems": [
    "C12_clag2z",
    "C12_dzamax",
    "C12_zcgbsv_refuted",
    "C12_zcgesv",
    "C12_zcposv",
    "C12_zgbmm_rejects_partial",
    "C12_zgbmm_refuted",
    "C12_zgbsv_rejects_partial",
    "C12_zgbsv_refuted",
    "C12_zgbtrf",
    "C12_zgbtrs",
    "C12_zgeadd",
    "C12_zgeinv_refuted",
    "C12_zgelqf",
    "C12_zgeqrf",
    "C12_zgetrf",
    "C12_zgelqs",
    "C12_zgels_rejects_partial",
    "C12_zgels_refuted",
    "C12_zgemm",
    "C12_zgeqrs",
    "C12_zgesdd_rejects_partial",
    "C12_zgesdd_refuted",
    "C12_zgesv",
    "C12_zgeswp",
    "C12_zgetri",
    "C12_zgetri_aux",
    "C12_zgetrs_rejects_partial",
    "C12_zgetrs_refuted",
    "C12_zhemm",
    "C12_zsymm",
    "C12_zher2k",
    "C12_zsyr2k",
    "C12_zherk",
    "C12_zsyrk",
    "C12_zhesv_rejects_partial",
    "C12_zhesv_refuted",
    "C12_zhetrs_rejects_partial",
    "C12_zhetrs_refuted",
    "C12_zhetrf",
    "C12_zlacpy",
    "C12_zlag2c",
    "C12_zlangb",
    "C12_zlange",
    "C12_zlanhe",
    "C12_zlansy",
    "C12_zlantr",
    "C12_zlascl",
    "C12_zlaset_rejects_partial",
    "C12_zlaset_refuted",
    "C12_zlauum",
    "C12_zpoinv",
    "C12_zpotrf",
    "C12_zpotri",
    "C12_zpbsv",
    "C12_zpbtrf",
    "C12_zpbtrs_rejects_partial",
    "C12_zpbtrs_refuted",
    "C12_zposv",
    "C12_zpotrs",
    "C12_ztradd",
    "C12_ztrmm_rejects_partial",
    "C12_ztrmm_refuted",
    "C12_ztrsm_rejects_partial",
    "C12_ztrsm_refuted",
    "C12_ztrtri",
    "C12_zunglq",
    "C12_zungqr",
    "C12_zunmlq",
    "C12_zunmqr",
    "C12_zgemm_no_effect",
    "C12_clag2z_no_effect",
    "C12_dzamax_no_effect",
    "C12_zgbmm_no_effect",
    "C12_zgeadd_no_effect",
    "C12_zgelqf_no_effect",
    "C12_zgeqrf_no_effect",
    "C12_zgetrf_no_effect",
    "C12_zgelqs_no_effect",
    "C12_zgels_no_effect",
    "C12_zgeqrs_no_effect",
    "C12_zgesv_no_effect",
    "C12_zgeswp_no_effect",
    "C12_zgetri_no_effect",
    "C12_zgetri_aux_no_effect",
    "C12_zgetrs_no_effect",
    "C12_zhemm_no_effect",
    "C12_zsymm_no_effect",
    "C12_zher2k_no_effect",
    "C12_zsyr2k_no_effect",
    "C12_zherk_no_effect",
    "C12_zsyrk_no_effect",
    "C12_zlacpy_no_effect",
    "C12_zlag2c_no_effect",
    "C12_zlangb_no_effect",
    "C12_zlange_no_effect",
    "C12_zlansy_no_effect",
    "C12_zlantr_no_effect",
    "C12_zlaset_no_effect",
    "C12_zlauum_no_effect",
    "C12_zpoinv_no_effect",
    "C12_zpotrf_no_effect",
    "C12_zpotri_no_effect",
    "C12_zpbsv_no_effect",
    "C12_zpbtrf_no_effect",
    "C12_zpbtrs_no_effect",
    "C12_zposv_no_effect",
    "C12_zpotrs_no_effect",
    "C12_ztradd_no_effect",
    "C12_ztrmm_no_effect",
    "C12_ztrsm_no_effect",
    "C12_ztrtri_no_effect",
    "C12_zunglq_no_effect",
    "C12_zungqr_no_effect",
    "C12_zunmlq_no_effect",
    "C12_zunmqr_no_effect",
    "C12_zlanhe_no_effect",
    "C12_zlascl_no_effect",
    "C12_zgeinv_no_effect_partial",
    "C12_zgbtrf_no_effect",
    "C12_zgbtrs_no_effect",
    "C12_zgbsv_no_effect",
    "C12_zcposv_no_effect"
   ],
   "note": "All 59 synchronous routines with argument checks. Proved for 46 of them. False for 13: the code returned is not minus the position (zcgbsv, zgbmm, zgbsv, zgels, zgesdd, zgetrs, zhesv, zhetrs, zlaset, zpbtrs, ztrmm, ztrsm) or an illegal leading dimension is accepted (zgeinv; kl and ku of zcgbsv are not checked). That a refused call returns the code and computes nothing (C12_*_no_effect) is proved for the 53 routines whose drivers are modelled; for zgesdd, zhesv, zhetrf, zhetrs, zcgbsv and zcgesv only the checks are modelled."
  },
  {
   "property": "C13",
   "status": "proved",
   "theorems": [
    "C13_barrier"
   ],
   "note": ""
  },
  {
   "property": "C14",
   "status": "proved",
   "theorems": [
    "C14_declared_tasks_deterministic",
    "C14_no_deadlock",
    "C14_terminates",
    "C14_kernels_deterministic"
   ],
   "note": ""
  },
  {
   "property": "C15",
   "status": "proved",
   "theorems": [
    "C15_zgemm"
   ],
   "note": ""
  },
  {
   "property": "C16",
   "status": "partial",
   "theorems": [
    "C16_zsyrk",
    "C16_zherk",
    "C16_zsyrk_k0_unchanged",
    "C16_k0_refuted"
   ],
   "note": "Proved for k > 0, and for k = 0 with beta = 1. For k = 0 and any other beta the property is false of the code: C is not scaled (refuted theorem)."
  },
  {
   "property": "C17",
   "status": "proved",
   "theorems": [
    "C17_zsymm",
    "C17_zhemm"
   ],
   "note": ""
  },
  {
   "property": "C18",
   "status": "partial",
   "theorems": [
    "C18_zsyr2k",
    "C18_zher2k",
    "C18_zsyr2k_k0_unchanged",
    "C18_k0_refuted"
   ],
   "note": "Proved for k > 0, and for k = 0 with beta = 1; false for k = 0 and any other beta (refuted theorem)."
  },
  {
   "property": "C19",
   "status": "proved",
   "theorems": [
    "C19_ztrmm"
   ],
   "note": "Whole driver, in-place update, every schedule, any commutative ring with conjugation, all sides/uplo/trans/diag."
  },
  {
   "property": "C20",
   "status": "partial",
   "theorems": [
    "C20_ztrsm_partial",
    "C20_zero_scalar_refuted"
   ],
   "note": "Whole driver, every schedule, any field with conjugation, nonsingular triangle. The claim is false for alpha = 0 with side right, trans not NoTrans and several tile columns: the code computes -1.0/alpha (C20_zero_scalar_refuted); that is the only case excluded from the theorem."
  },
  {
   "property": "C21",
   "status": "proved",
   "theorems": [
    "C21_zpotrf_factor"
   ],
   "note": "Whole driver, both triangles, every tile size and schedule, any field with conjugation and a square root for pivots (oracle for LAPACK zpotrf on a tile)."
  },
  {
   "property": "C22",
   "status": "proved",
   "theorems": [
    "C22_zpotrf_status"
   ],
   "note": "Every positive number is assumed to have a square root (exact arithmetic); complex numbers are shown to be an instance. That nothing outside the matrix changes is part of C21_zpotrf_factor."
  },
  {
   "property": "C23",
   "status": "partial",
   "theorems": [
    "C23_tile_lu",
    "C23_panel_update_threads",
    "C23_panel_gemm_threads",
    "C23_zgetrf_partial",
    "C23_zgetrf_refuted",
    "C23_zgetrf_status_refuted"
   ],
   "note": "plasma_omp_zgetrf: proved for all sizes, tile sizes, inner block sizes, thread counts and schedules. plasma_zgetrf: proved for at most three tile rows or one tile column; otherwise false of the code (race between the translation to tiles and the update of a tile column), with two witnesses."
  },
  {
   "property": "C24",
   "status": "proved",
   "theorems": [
    "C24_rows_forward",
    "C24_rows_backward",
    "C24_columns_forward",
    "C24_columns_backward",
    "C24_rows_restored",
    "C24_columns_restored"
   ],
   "note": "Whole driver, every schedule, every tile size, increments 1 and -1, any type of elements. The array ipiv is given by its contents."
  },
  {
   "property": "C25",
   "status": "proved",
   "theorems": [
    "C25_tree_operations",
    "C25_block_greedy_any_size",
    "C25_flat_ts",
    "C25_flat_tt",
    "C25_binary",
    "C25_auto",
    "C25_greedy"
   ],
   "note": "All six generators of control/tree.c, every mt, nt >= 1 and concurrency >= 1; the while loops end and no assertion on the size of the array fires. 32-bit overflow of the size of the array (mt*minnt) is not modelled."
  },
  {
   "property": "C26",
   "status": "proved",
   "theorems": [
    "C26_zlange",
    "C26_zlansy",
    "C26_zlanhe",
    "C26_zlantr",
    "C26_zlange_frobenius_complex",
    "C26_dzamax",
    "C26_zlange_workspace",
    "C26_zlansy_workspace",
    "C26_zlantr_workspace",
    "C26_dzamax_workspace"
   ],
   "note": "Exact arithmetic over any field with an absolute value (record normed; instances: rationals, complex numbers over the reals). LAPACK zlassq and the square root are oracles, zlassq with its contract lassq_ok. Whole driver, every schedule."
  },
  {
   "property": "C27",
   "status": "proved",
   "theorems": [
    "C27_zgeadd",
    "C27_ztradd",
    "C27_zlacpy",
    "C27_zlascl",
    "C27_zlaset"
   ],
   "note": "Exact arithmetic over an arbitrary commutative ring with conjugation (a field for zlascl). A and B must share no element."
  },
  {
   "property": "C28",
   "status": "partial",
   "theorems": [
    "C28_value_range_partial",
    "C28_index_range_partial",
    "C28_multiplicities",
    "C28_count",
    "C28_too_small",
    "C28_midpoint",
    "C28_uninitialized_refuted",
    "C28_index_refuted",
    "C28_novec_refuted",
    "C28_sturm_misses_refuted",
    "C28_sturm_decreases_refuted",
    "C28_sturm_counts_u_refuted",
    "C28_sturm_counts_pivots"
   ],
   "note": "The bisection is proved correct on every schedule of its tasks for any monotone count, if the caller has zeroed the multiplicities, asks for eigenvectors and (index range) il does not fall inside a multiple eigenvalue. Each condition is needed: witnesses for the stray store, the false eigenvalues, the null pointer and the wrong Sturm count."
  },
  {
   "property": "C29",
   "status": "proved",
   "theorems": [
    "C29_zcgesv_report",
    "C29_zcposv_report",
    "C29_zcgbsv_report",
    "C29_failed_factorization_refuted"
   ],
   "note": "The called routines are oracles; the task graph is taken in submission order between taskwaits. Without the condition that the low-precision factorization succeeds the claim is false: C29_failed_factorization_refuted gives a run that reports iter = 0 after testing uninitialised norms."
  },
  {
   "property": "C30",
   "status": "partial",
   "theorems": [
    "C30_round_trip",
    "C30_invalid",
    "C30_job_refuted",
    "C30_range_refuted",
    "C30_norm_refuted",
    "C30_W_refuted"
   ],
   "note": "Holds for trans, diag, side, direct, storev, uplo and the norms other than 2. False for the job and range constants (written as NUL), the 2-norm (written T, not read back) and PlasmaW (written A: a comma is missing in the table)."
  },
  {
   "property": "C31",
   "status": "partial",
   "theorems": [
    "C31_dense_create_succeeds",
    "C31_packed_create_succeeds",
    "C31_band_create_succeeds_partial",
    "C31_wide_band_refused_refuted",
    "C31_hetrf_small_always_refused",
    "C31_hetrf_small_refuted"
   ],
   "note": "Holds for dense and packed operands; false for band operands with a bandwidth not smaller than the order and for zhetrf with n <= nb."
  },
  {
   "property": "C32",
   "status": "proved",
   "theorems": [
    "C32_T_slots"
   ],
   "note": ""
  },
  {
   "property": "C33",
   "status": "partial",
   "theorems": [
    "C33_same_tree",
    "C33_leading_columns_refuted",
    "C33_threads_refuted"
   ],
   "note": "True for all reflectors and the same number of threads; false for a leading part of the reflectors (k < min(m,n)) and for a different number of threads, with witnesses."
  },
  {
   "property": "C34",
   "status": "partial",
   "theorems": [
    "C34_reader_overtaken_refuted"
   ],
   "note": "False of the code for plasma_omp_zgeswp after a routine that only reads the matrix (refuted theorem). The statement for the routines whose tasks declare every tile they touch is C14."
  },
  {
   "property": "C35",
   "status": "partial",
   "theorems": [
    "C35_zpotrs_solves",
    "C35_zposv_solves",
    "C35_zposv_status",
    "C35_zposv_no_rhs_refuted"
   ],
   "note": "Whole drivers in exact arithmetic, every schedule. plasma_zposv: proved for at least one right hand side; without right hand sides it returns 0 without looking at A, although the factor of A is promised on exit (refuted theorem)."
  },
  {
   "property": "C36",
   "status": "proved",
   "theorems": [
    "C36_zgetrs_solves"
   ],
   "note": "Whole driver in exact arithmetic, every schedule. plasma_zgesv, which factorizes in the same region, is not modelled."
  },
  {
   "property": "C37",
   "status": "proved",
   "theorems": [
    "C37_ztrtri_inverts",
    "C37_ztrtri_first_zero_refuted",
    "C37_zlauum_product",
    "C37_zpotri_inverts",
    "C37_zpoinv_inverts",
    "C37_zpoinv_status"
   ],
   "note": "Whole drivers in exact arithmetic, every schedule. zlauum and zpotri for factors with real diagonal, as Cholesky factors have (LAPACK ignores imaginary parts there). The other triangle is shown unchanged when the routine returns zero; on failure only that nothing outside the matrix changes. LAPACK names the first zero of the diagonal; plasma_ztrtri does not on every schedule (refuted theorem, an extra)."
  },
  {
   "property": "C38",
   "status": "proved",
   "theorems": [
    "C38_zgeqrf_factors"
   ],
   "note": "Whole driver in exact arithmetic, flat Householder mode (the default), every schedule. LAPACK zlarfg is an oracle with the contract larfg_ok (shown to hold of zlarfg over the complex numbers, larfg_C_ok); the effects of zgeqr2, zlarft and zlarfb are trusted."
  },
  {
   "property": "C39",
   "status": "proved",
   "theorems": [
    "C39_zunmqr_applies_Q"
   ],
   "note": "Whole driver in exact arithmetic, flat Householder mode, every schedule, all four products, all min(m,n) reflectors."
  },
  {
   "property": "C40",
   "status": "proved",
   "theorems": [
    "C40_zgeqrs_least_squares",
    "C40_least_squares_minimises"
   ],
   "note": "Whole driver in exact arithmetic, flat Householder mode, every schedule. The solution is characterised by the residual being orthogonal to the columns of A; over the complex numbers this is the minimum (C40_least_squares_minimises)."
  },
  {
   "property": "C41",
   "status": "partial",
   "theorems": [
    "C41_zungqr_generates_Q",
    "C41_zungqr_n_columns_refuted"
   ],
   "note": "Proved for the columns 0..k-1 with k = min(m,n) reflectors, every schedule, flat mode. With k < n the remaining n - k columns are not written, against the documentation (refuted theorem). Not proved: k < min(m,n)."
  },
  {
   "property": "C42",
   "status": "proved",
   "theorems": [
    "C42_zgelqf_factors"
   ],
   "note": "Whole driver in exact arithmetic, flat Householder mode, every schedule. LAPACK zlarfg is an oracle with the contract larfg_ok (holds over the complex numbers, larfg_C_ok); the effects of zgelq2, zlarft and zlarfb with rowwise storage are trusted."
  },
  {
   "property": "C43",
   "status": "proved",
   "theorems": [
    "C43_zunmlq_applies_Q"
   ],
   "note": "Whole driver in exact arithmetic, flat Householder mode, every schedule, all four products, all min(m,n) reflectors."
  },
  {
   "property": "C44",
   "status": "partial",
   "theorems": [
    "C44_zgelqs_minimum_norm",
    "C44_minimum_norm_minimises",
    "C44_zgelqs_empty_refuted"
   ],
   "note": "Proved for every m > 0. For m = 0 the routine leaves B unchanged, which is not the minimum norm solution 0 (refuted theorem). Whole driver in exact arithmetic, flat mode, every schedule."
  },
  {
   "property": "C45",
   "status": "partial",
   "theorems": [
    "C45_zunglq_generates_Q",
    "C45_zunglq_m_rows_refuted"
   ],
   "note": "Proved for the rows 0..k-1 with k = min(m,n) reflectors, every schedule, flat mode. With k < m the remaining rows are not written, against the documentation (refuted theorem). Not proved: k < min(m,n)."
  },
  {
   "property": "C46",
   "status": "partial",
   "theorems": [
    "C46_zgels_solves",
    "C46_zgels_empty_residual_refuted"
   ],
   "note": "Whole driver in exact arithmetic, flat mode, every schedule, all four cases. The residual claim holds of the code only if the smaller dimension is not zero: the quick return zeroes B (refuted theorem)."
  },
  {
   "property": "C47",
   "status": "partial",
   "theorems": [
    "C47_general_storage_does_not_overflow",
    "C47_packed_storage_does_not_overflow_partial",
    "C47_packed_storage_up_to_46340_partial",
    "C47_packed_storage_overflows_from_65536",
    "C47_packed_storage_refuted",
    "C47_packed_storage_wrapping_refuted",
    "C47_band_storage_does_not_overflow",
    "C47_general_band_drivers_do_not_overflow",
    "C47_hermitian_band_drivers_do_not_overflow"
   ],
   "note": "Proved for general storage. For packed triangular storage proved below 2^31 elements (in particular up to order 46340); from order 65536 on the computation of the allocation overflows int for every tile size (refuted theorems, also with wrapping arithmetic, where a stored tile lies outside the allocation). Band storage: proved for descriptors that begin at the origin, and for the storage the band drivers ask for, including the number of rows they compute and the descriptor check; an Example shows that the condition on the sum of bandwidths and rows is needed."
  },
  {
   "property": "C48",
   "status": "partial",
   "theorems": [
    "C48_band_translation_in",
    "C48_band_translation_out",
    "C48_band_translation_round_trip",
    "C48_general_band_translation_refuted",
    "C48_general_band_bounds_refuted",
    "C48_general_band_copy_race_refuted"
   ],
   "note": "Proved for the triangles of Hermitian band matrices, every schedule. For general band matrices (zgbtrf, zgbsv) the code reads up to nb rows too many: with the leading dimension 2*kl+ku+1 of LAPACK it puts foreign elements into the tiles and for m > n reads and writes behind the array; for m < n with a last tile row that is not full a copy task also writes before its tile, a data race with the task of another tile (refuted theorems)."
  },
  {
   "property": "C49",
   "status": "partial",
   "theorems": [
    "C49_zpbtrf_factor",
    "C49_zpbtrf_status",
    "C49_zpbtrf_status_any",
    "C49_zpbtrf_first_minor_refuted",
    "C49_zpbtrf_wide_band_refuted"
   ],
   "note": "Factorization and frame proved for all kd < n on every schedule. The code returned is the order of the smallest leading matrix that is not positive definite when kd > 0; for kd = 0 it is the order of some such matrix, and not always the smallest (refuted). kd >= n is refused although documented as legal (refuted)."
  },
  {
   "property": "C50",
   "status": "partial",
   "theorems": [
    "C50_zpbtrs_solves",
    "C50_zpbtrs_empty_refuted",
    "C50_zpbtrs_wide_band_refuted"
   ],
   "note": "Solution and frame proved for all kd < n on every schedule. Legal calls with n = 0 < nrhs or kd >= n are refused (refuted theorems)."
  },
  {
   "property": "C51",
   "status": "partial",
   "theorems": [
    "C51_zpbsv_solves",
    "C51_zpbsv_status",
    "C51_zpbsv_status_any",
    "C51_zpbsv_no_rhs_refuted"
   ],
   "note": "Solution, factor and frame proved for all kd < n, nrhs > 0 on every schedule. The code returned is the order of the smallest leading matrix that is not positive definite when kd > 0; for kd = 0 it is the order of some such matrix. Without right hand sides 0 is returned and nothing is factored (refuted theorem)."
  },
  {
   "property": "C52",
   "status": "partial",
   "theorems": [
    "C52_zlangb_partial",
    "C52_zlangb_tests_partial",
    "C52_zlangb_empty",
    "C52_zlangb_workspace",
    "C52_zlangb_storage_refuted",
    "C52_zlangb_wide_band_refuted"
   ],
   "note": "Proved for the layout of the tests (diagonal in row kl + ku, zeros around the band), all four norms, every schedule, except for matrices with more columns than rows whose last tile row is not full. Violated by the code otherwise: with the number of rows the argument check asks for the diagonal is looked for in the wrong row (Max, One and Inf norm, every schedule), and for a band wider than the matrix an error code is returned as the norm."
  },
  {
   "property": "C53",
   "status": "proved",
   "theorems": [
    "C53_zgetri_inverts",
    "C53_zgetri_aux_inverts"
   ],
   "note": "Both routines for every order, tile size and schedule. The status of the sequence is looked at by every task in the model; the tasks of zlaset and zgeswp do not look at it in the code, which cannot be observed outside the n x n part of the array."
  },
  {
   "property": "C54",
   "status": "partial",
   "theorems": [
    "C54_zgesv_partial",
    "C54_zgesv_status_refuted",
    "C54_zgesv_refuted",
    "C54_zgesv_interchanges_refuted"
   ],
   "note": "Solution, factors, frame and status for nonsingular A proved for n <= 3*nb on every schedule. For n > 3*nb there are executions with a wrong result and with a wrong status (refuted theorems); for singular A the interchanges, which do not test the status, can use entries of ipiv that no panel has set (refuted theorem)."
  },
  {
   "property": "C55",
   "status": "partial",
   "theorems": [
    "C55_zgeinv_partial",
    "C55_zgeinv_status_refuted",
    "C55_zgeinv_refuted",
    "C55_zgeinv_square_refuted",
    "C55_zgeinv_lda_refuted"
   ],
   "note": "Inverse, frame and status for nonsingular A proved for square matrices with n <= 3*nb on every schedule. For n > 3*nb there are executions with a wrong result and with a wrong status; matrices that are not square are accepted and can give 0, with lda checked against n (refuted theorems). Nothing is proved about singular A."
  },
  {
   "property": "C56",
   "status": "proved",
   "theorems": [
    "C56_zlag2c",
    "C56_clag2z"
   ],
   "note": "Both routines for every shape, tile size, conversion function and schedule, also when an element is out of range."
  },
  {
   "property": "C57",
   "status": "partial",
   "theorems": [
    "C57_zposv_failure",
    "C57_zpbsv_failure",
    "C57_zpbsv_diagonal_refuted"
   ],
   "note": "Proved for plasma_zposv and for plasma_zpbsv with kd > 0. Violated by plasma_zpbsv with kd = 0, where rows of B are solved independently."
  },
  {
   "property": "C58",
   "status": "partial",
   "theorems": [
    "C58_zgbmm_partial",
    "C58_zgbmm_empty_sum_refuted",
    "C58_zgbmm_empty_result_refuted",
    "C58_zgbmm_transposed_refuted"
   ],
   "note": "Result and frame proved for all bandwidths with kl < m, ku < k (and kl < k, ku < m if A is transposed) on every schedule. The documented cases m = 0 and k = 0 are refused, and so are legal bandwidths of a transposed A that exceed the size of op(A) (refuted theorems)."
  },
  {
   "property": "C59",
   "status": "partial",
   "theorems": [
    "C59_zgbset_partial",
    "C59_zgbset_padded_refuted",
    "C59_zgbset_tall_refuted"
   ],
   "note": "Proved for kl + ku >= m with every leading dimension, and for lda = m if m <= n or kl <= 1 or kl + ku <= n. With padding, and for tall matrices with other bands, elements outside of the band stay and elements of the band, of the padding and before the array are zeroed (refuted theorems)."
  },
  {
   "property": "C60",
   "status": "partial",
   "theorems": [
    "C60_zcposv_one_tile_partial",
    "C60_refinement_loop",
    "C60_norm_race_refuted",
    "C60_other_triangle_refuted"
   ],
   "note": "Whole call proved for n and nrhs at most nb, on every schedule and for every low precision solver; the refinement loop for any number of tiles. With several tiles an execution accepts an X that fails the test, because the norm of A is computed from a workspace other tasks overwrite; and the triangle not referenced can make the call fail (refuted theorems)."
  },
  {
   "property": "C61",
   "status": "proved",
   "theorems": [
    "C61_zgbtrs_solves",
    "C61_zgbtrs_empty_refuted",
    "C61_zgbtrs_wide_band_refuted",
    "C61_zgbtrs_least_ld_refuted"
   ],
   "note": "Proved for every band narrower than the matrix and every schedule, with the tasks that are waited for in between. The hypothesis band_factors says where the factors are read from the array; with the least leading dimension that is accepted some of these places coincide. Legal calls with n = 0 < nrhs or with a band as wide as the matrix are refused (refuted)."
  },
  {
   "property": "C62",
   "status": "proved",
   "theorems": [
    "C62_zgbtrf_factors",
    "C62_ld_of_tests",
    "C62_zgbtrf_empty_refuted",
    "C62_zgbtrf_wide_band_refuted"
   ],
   "note": "Proved for square matrices and every schedule of the three regions; for kl = ku = 0 the panels are independent and the code is that of any of those that fail. Rectangular matrices are not covered. Empty matrices and bands as wide as the matrix are refused although documented as legal (refuted)."
  },
  {
   "property": "C63",
   "status": "proved",
   "theorems": [
    "C63_zgbsv_solves",
    "C63_zgbsv_no_rhs_refuted",
    "C63_zgbsv_wide_band_refuted"
   ],
   "note": "Proved for nrhs >= 1 and every schedule. Without right hand sides the matrix is not factored although 0 is returned, and bands as wide as the matrix are refused (refuted)."
  },
  {
   "property": "C64",
   "status": "proved",
   "theorems": [
    "C64_tile_band_copy",
    "C64_band_storage"
   ],
   "note": "Proved for every schedule. The reduction to band form itself (pzge2gb) is not modelled: the theorems are about whatever the tiles hold when the copy starts."
  },
  {
   "property": "C65",
   "status": "partial",
   "theorems": [
    "C65_band_conversion",
    "C65_band_conversion_back",
    "C65_band_is_near",
    "C65_used_is_converted",
    "C65_unconverted_is_used",
    "C65_fill_in_refuted"
   ],
   "note": "The conversions are proved for every schedule. The factorization that follows uses converted elements only if the fill-in fits into the tiles of the upper band; otherwise it reads tiles that are neither converted nor cleared, and its result depends on uninitialised memory (refuted theorem, in program order). The rest of plasma_zcgbsv is not modelled."
  },
  {
   "property": "C66",
   "status": "partial",
   "theorems": [
    "C66_zcgesv_workspace",
    "C66_zcposv_workspace",
    "C66_zcgbsv_workspace",
    "C66_zcgbsv_overflow_refuted",
    "C66_zcgesv_overflow_refuted",
    "C66_zcposv_overflow_refuted"
   ],
   "note": "Proved if the two sizes compared by imax are below 2^31. Otherwise the conversion to int makes the workspace too small and tasks write past its end (refuted theorems; zcgbsv with tile size 256, a tridiagonal matrix of order 741376). The conversion is modelled modulo 2^32, as compilers do it. Failure of malloc is not modelled."
  },
  {
   "property": "C67",
   "status": "partial",
   "theorems": [
    "C67_small_ordered",
    "C67_norms_unordered",
    "C67_norms_ordered_refuted"
   ],
   "note": "True if n <= nb and (nrhs <= nb or 2n <= nb); false in all other cases (theorem C67_norms_unordered, and the refuted instance with the default tile size and n = 300). The tasks between the two are arbitrary tasks that do not name the workspace or the norm in a depend clause."
  },
  {
   "property": "C68",
   "status": "partial",
   "theorems": [
    "C68_vectors_inside",
    "C68_vectors_distinct",
    "C68_no_vectors_inside",
    "C68_small_tiles_refuted"
   ],
   "note": "Proved for every block size V > 0. plasma_zgesdd takes V = nb/4, which is 0 for tile sizes below 4, where the code divides by zero (refuted theorem). The arithmetic on the bands and the order of the steps are not modelled; int does not overflow."
  },
  {
   "property": "C69",
   "status": "proved",
   "theorems": [
    "C69_blocks_inside",
    "C69_vectors_covered",
    "C69_blocks_disjoint"
   ],
   "note": "Proved for every block size V > 0 and tile size above 1, where the code does not return at once; V = 0 divides by zero (C68). The arithmetic of zlarft and the later use of T are not modelled; int does not overflow."
  }
 ]
}