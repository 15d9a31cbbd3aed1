{
 "claims": [
  {
   "property": "C01",
   "status": "proved",
   "theorems": [
    "C01_positions_are_distinct_cells",
    "C01_get_reads_the_element",
    "C01_set_changes_one_element",
    "C01_get_after_set"
   ],
   "note": ""
  },
  {
   "property": "C02",
   "status": "proved",
   "theorems": [
    "C02_submatrix",
    "C02_column",
    "C02_row",
    "C02_diagonal",
    "C02_subvector",
    "C02_nested"
   ],
   "note": ""
  },
  {
   "property": "C03",
   "status": "proved",
   "theorems": [
    "C03_get_at",
    "C03_set_at",
    "C03_enumeration",
    "C03_get_at_unsafe",
    "C03_set_at_unsafe"
   ],
   "note": ""
  },
  {
   "property": "C04",
   "status": "partial",
   "theorems": [
    "C04_partition_2x2_tiles",
    "C04_repartition_3x3_tiles",
    "C04_continue_2x2_tiles",
    "C04_continue_up_tiles_partial",
    "C04_continue_up_refuted",
    "C04_traversal_down",
    "C04_traversal_up"
   ],
   "note": "Full for the downward traversal and for both traversal loops; the continue step towards the origin gives the block ABL the wrong width (partition.h:492), refuted by C04_continue_up_refuted."
  },
  {
   "property": "C05",
   "status": "proved",
   "theorems": [
    "C05_partition_2x1",
    "C05_repartition_3x1",
    "C05_continue_2x1",
    "C05_partition_1x2",
    "C05_repartition_1x3",
    "C05_continue_1x2",
    "C05_vec_partition",
    "C05_vec_repartition",
    "C05_vec_continue",
    "C05_merge_2x1",
    "C05_merge_1x2"
   ],
   "note": ""
  },
  {
   "property": "C06",
   "status": "proved",
   "theorems": [
    "C06_mcopy",
    "C06_mcopy_vectors",
    "C06_mcopy_mismatch"
   ],
   "note": ""
  },
  {
   "property": "C07",
   "status": "proved",
   "theorems": [
    "C07_mcopy_transposed",
    "C07_transposed_twice"
   ],
   "note": ""
  },
  {
   "property": "C08",
   "status": "proved",
   "theorems": [
    "C08_swap",
    "C08_swap_twice",
    "C08_copy"
   ],
   "note": ""
  },
  {
   "property": "C09",
   "status": "proved",
   "theorems": [
    "C09_axpby",
    "C09_axpy",
    "C09_axpby_mismatch"
   ],
   "note": ""
  },
  {
   "property": "C10",
   "status": "partial",
   "theorems": [
    "C10_scale",
    "C10_mscale_all",
    "C10_mscale_symm_error",
    "C10_mscale_lower_partial",
    "C10_mscale_upper_refuted",
    "C10_mscale_lower_unit_refuted"
   ],
   "note": "Full for vectors, whole and symmetric matrices and the lower part. False for UPPER (only diagonal elements are scaled) and for LOWER|UNIT on tall matrices (last column left out), see the _refuted theorems."
  },
  {
   "property": "C11",
   "status": "partial",
   "theorems": [
    "C11_madd_vector",
    "C11_madd_partial",
    "C11_madd_upper_unit_refuted",
    "C11_madd_lower_unit_refuted",
    "C11_madd_upper_wide_refuted"
   ],
   "note": "Proved for vectors, whole matrices, LOWER, and UPPER on matrices that are not wide. False for UPPER|UNIT, UPPER on wide matrices (writes below the view) and LOWER|UNIT on tall ones, see the _refuted theorems."
  },
  {
   "property": "C12",
   "status": "partial",
   "theorems": [
    "C12_mplus_size",
    "C12_mplus_partial",
    "C12_mplus_vectors",
    "C12_mplus_lower_trans_refuted",
    "C12_mplus_scalar_refuted"
   ],
   "note": "Proved for all shapes and flags except the combinations refuted: a transposed B is not transposed when LOWER or UPPER is given, and a 1x1 B drops the factor alpha."
  },
  {
   "property": "C13",
   "status": "partial",
   "theorems": [
    "C13_set_values",
    "C13_set_values_symm",
    "C13_make_trm_partial",
    "C13_make_trm_refuted",
    "C13_apply_partial",
    "C13_apply_refuted",
    "C13_set_all"
   ],
   "note": "set_values and set_all full; make_trm UPPER|UNIT and apply UPPER write below wide views, see the _refuted theorems."
  },
  {
   "property": "C14",
   "status": "proved",
   "theorems": [
    "C14_adot",
    "C14_dot",
    "C14_dot_sym"
   ],
   "note": ""
  },
  {
   "property": "C15",
   "status": "proved",
   "theorems": [
    "C15_asum"
   ],
   "note": ""
  },
  {
   "property": "C16",
   "status": "proved",
   "theorems": [
    "C16_iamax",
    "C16_amax",
    "C16_iamax_error"
   ],
   "note": ""
  },
  {
   "property": "C17",
   "status": "partial",
   "theorems": [
    "C17_iamin_partial",
    "C17_iamin_refuted"
   ],
   "note": "Proved for contiguous vectors. False for a row of a matrix: the pointer is advanced by one element instead of the stride after the first element (iamax.c:130), see C17_iamin_refuted."
  },
  {
   "property": "C18",
   "status": "proved",
   "theorems": [
    "C18_nrm2",
    "C18_nrm2_div",
    "C18_frobenius"
   ],
   "note": ""
  },
  {
   "property": "C19",
   "status": "partial",
   "theorems": [
    "C19_mvmult",
    "C19_mvmult_abs_trans",
    "C19_mvmult_mismatch",
    "C19_empty_refuted",
    "C19_abs_refuted",
    "C19_threshold_one_refuted"
   ],
   "note": "Full for every flag word without ABS, non-empty operands and every threshold but 1 (where the recursion never ends, C19_threshold_one_refuted). An empty product leaves y unscaled (C19_empty_refuted); ABS without TRANS writes one element too far (C19_abs_refuted)."
  },
  {
   "property": "C20",
   "status": "partial",
   "theorems": [
    "C20_mvupdate",
    "C20_mvupdate_mismatch",
    "C20_threshold_one_refuted"
   ],
   "note": "Full for thresholds of two or more and for the naive strategy; with smaller thresholds the recursion never ends (C20_threshold_one_refuted)."
  },
  {
   "property": "C21",
   "status": "partial",
   "theorems": [
    "C21_mvmult_sym",
    "C21_mvmult_sym_mismatch",
    "C21_mvupdate_trm",
    "C21_mvupdate_trm_mismatch",
    "C21_mvupdate_sym",
    "C21_mvupdate2_sym",
    "C21_threshold_one_refuted",
    "C21_no_triangle_flag_refuted",
    "C21_update2_size_refuted",
    "C21_trapezoid_recursive_refuted"
   ],
   "note": "Full for flag words naming exactly one triangle (the updates: not both) and thresholds of two or more; only the named triangle needs to be allocated. Below that the product never ends (C21_threshold_one_refuted); without a triangle flag the product depends on the threshold (C21_no_triangle_flag_refuted); the rank-2 update accepts vectors of the wrong length (C21_update2_size_refuted); the recursive rank-1 update misses elements of a trapezium (C21_trapezoid_recursive_refuted)."
  },
  {
   "property": "C22",
   "status": "partial",
   "theorems": [
    "C22_mvmult_trm",
    "C22_other_triangle_unused",
    "C22_mvmult_trm_mismatch",
    "C22_threshold_one_refuted",
    "C22_both_triangles_refuted"
   ],
   "note": "Full for flag words that do not give UPPER and LOWER together and for every threshold but 1 (where the recursion never ends, C22_threshold_one_refuted). TRANS is obeyed only together with UPPER or LOWER. With UPPER|LOWER the strategies disagree (C22_both_triangles_refuted)."
  },
  {
   "property": "C23",
   "status": "partial",
   "theorems": [
    "C23_mvsolve_trm",
    "C23_mvsolve_trm_mismatch",
    "C23_threshold_one_refuted"
   ],
   "note": "Full for flag words that do not give UPPER and LOWER together, a non-zero stored diagonal and every threshold but 1 (where the recursion never ends, C23_threshold_one_refuted). TRANS is obeyed only together with UPPER or LOWER."
  },
  {
   "property": "C24",
   "status": "partial",
   "theorems": [
    "C24_mult_partial",
    "C24_mult_abs_partial",
    "C24_mult_errors",
    "C24_default_config",
    "C24_abs_refuted",
    "C24_ctrans_refuted",
    "C24_empty_refuted",
    "C24_empty_block_refuted",
    "C24_empty_block_reached_refuted"
   ],
   "note": "All sizes, all transpose flags (the conjugate ones too, for real types), every block configuration whose computed block sizes are positive and at least a cache line high (C24_default_config: the default configuration is one for 4- and 8-byte elements). Exact arithmetic over any commutative ring; the portable kernels (nosimd/mult.h). The accelerator path (off by default) is not modelled. False for: ABSA or ABSB alone (C24_abs_refuted), TRANSA with CTRANSA (C24_ctrans_refuted), an empty inner dimension (C24_empty_refuted), configurations that give blocks of 0 columns (C24_empty_block_refuted)."
  },
  {
   "property": "C25",
   "status": "partial",
   "theorems": [
    "C25_block_index_partial",
    "C25_overflow_refuted",
    "C25_blocks_partial",
    "C25_threads_partial",
    "C25_zero_threads_refuted",
    "C25_tiles_partial",
    "C25_tiled_mult_partial"
   ],
   "note": "Proved when nblocks*ntotal fits in int and at least one thread is configured. False otherwise: the product overflows int (C25_overflow_refuted) and zero threads divide by zero (C25_zero_threads_refuted)."
  },
  {
   "property": "C26",
   "status": "partial",
   "theorems": [
    "C26_interleaving",
    "C26_workers_mult_partial",
    "C26_workers_sequential_partial",
    "C26_schedules_partial",
    "C26_ctrans_refuted"
   ],
   "note": "C26_interleaving is general: programs with write footprints no other program touches, every interleaving of single accesses. The matrix product by workers or threads (compute_block of workers/gemm.c and threaded/gemm.c) is an instance for every partition of C, every assignment of the blocks to workers and every usable per-worker scratch buffer. False with CTRANSA/CTRANSB (C26_ctrans_refuted). Missing: the other parallel operations, configurations without usable blocks."
  },
  {
   "property": "C27",
   "status": "partial",
   "theorems": [
    "C27_pivot_rows",
    "C27_pivot_cols",
    "C27_too_many_pivots",
    "C27_round_trip_partial",
    "C27_round_trip_refuted",
    "C27_pivot_rows_flags_refuted"
   ],
   "note": "Full for every pivot vector given with FORWARD or BACKWARD. The round trip needs as many pivots as rows (C27_round_trip_refuted), and armas_pivot_rows compares the whole flag word with ARMAS_PIVOT_BACKWARD (C27_pivot_rows_flags_refuted)."
  },
  {
   "property": "C28",
   "status": "proved",
   "theorems": [
    "C28_symmetric_pivot"
   ],
   "note": ""
  },
  {
   "property": "C29",
   "status": "partial",
   "theorems": [
    "C29_regions_partial",
    "C29_reserve",
    "C29_reserve_wrap_refuted"
   ],
   "note": "Full for sizes that do not wrap in size_t; count * size is not checked, see C29_reserve_wrap_refuted."
  },
  {
   "property": "C30",
   "status": "partial",
   "theorems": [
    "C30_init",
    "C30_thread_global",
    "C30_setup2_partial",
    "C30_setup2_refuted",
    "C30_setup3_partial",
    "C30_default_config",
    "C30_empty_block_refuted",
    "C30_fixed",
    "C30_fixed_workspace_refuted"
   ],
   "note": "Proved for the default configuration and for the cache sizes stated in the theorems; small buffers overlap, tiny ones give empty blocks and fixed blocks in a user workspace run over its end, see the _refuted theorems. The double arithmetic of the split is modelled exactly, without rounding."
  },
  {
   "property": "C31",
   "status": "proved",
   "theorems": [
    "C31_linearizable",
    "C31_in_order",
    "C31_no_race"
   ],
   "note": "All functions of queue.h as programs of single accesses to shared variables and pthread calls (MThread.v), any number of threads, every interleaving (sequential consistency; the absence of data races is part of the claim), spurious wake-ups and timeouts included, every capacity below 2^32. Return codes of the timed waits (which no caller uses) are not modelled."
  },
  {
   "property": "C32",
   "status": "partial",
   "theorems": [
    "C32_targets",
    "C32_at_most_once",
    "C32_all_done_partial",
    "C32_progress",
    "C32_ends",
    "C32_complete_partial",
    "C32_early_refuted"
   ],
   "note": "Persistent workers (workers.c) and the caller (gemm.c) as a transition system (MWorkers.v) with atomic queue and counter operations (C31, C34) and single accesses to the task fields; any number of workers and tasks, any routing, any capacity, every interleaving. At most once holds always; exactly once when the caller is told is proved without spurious wake-ups and false with them (C32_early_refuted, the fault of armas_counter_wait shown in C34). Progress, a bound on the number of state-changing steps, and the choice of queues (C32_targets) are proved. The transient scheduler is not covered."
  },
  {
   "property": "C33",
   "status": "proved",
   "theorems": [
    "C33_mutual_exclusion",
    "C33_release_held",
    "C33_no_lost_wakeup",
    "C33_contended_release_wakes"
   ],
   "note": "mutex_lock and mutex_unlock of sync.h as programs of atomic operations and futex calls (MMutex.v), any number of threads, every interleaving, spurious wake-ups included. The plain store in mutex_unlock is one atomic write in the model. Fairness (no starvation) is not claimed."
  },
  {
   "property": "C34",
   "status": "partial",
   "theorems": [
    "C34_released_after_last_partial",
    "C34_counter_range",
    "C34_never_stuck",
    "C34_ends",
    "C34_spurious_refuted"
   ],
   "note": "Counter of counter.h in its use by the parallel product: one waiting thread, any number of workers and tasks, every interleaving. Range, absence of stuck states and a bound on the number of steps hold with spurious wake-ups too; release only after the last task is proved without spurious wake-ups and false with them, because armas_counter_wait tests the counter only once (C34_spurious_refuted)."
  },
  {
   "property": "C35",
   "status": "partial",
   "theorems": [
    "C35_append",
    "C35_append_sequence",
    "C35_append_new",
    "C35_append_compressed",
    "C35_position_unchecked_refuted",
    "C35_empty_new_refuted"
   ],
   "note": "Every sequence of appends from every ready coordinate list, under every pattern of failing allocations. Positions outside the matrix are accepted (C35_position_unchecked_refuted) and a matrix created with nnz = 0 loses its kind and size (C35_empty_new_refuted). The int counters are unbounded in the model."
  },
  {
   "property": "C36",
   "status": "partial",
   "theorems": [
    "C36_convert",
    "C36_order_independent",
    "C36_convert_to_coo",
    "C36_empty_refuted",
    "C36_same_format_refuted",
    "C36_reuse_target_refuted"
   ],
   "note": "Full for conversions between different formats of matrices with at least one stored element. A matrix without elements gives null (C36_empty_refuted), the same format gives an empty matrix (C36_same_format_refuted), and converting into a used matrix goes wrong (C36_reuse_target_refuted)."
  },
  {
   "property": "C37",
   "status": "partial",
   "theorems": [
    "C37_transpose",
    "C37_transpose_twice",
    "C37_empty_refuted"
   ],
   "note": "Full for compressed matrices with at least one stored element; without elements the result is null (C37_empty_refuted)."
  },
  {
   "property": "C38",
   "status": "proved",
   "theorems": [
    "C38_sort",
    "C38_sort_coo_refused"
   ],
   "note": "Full; a coordinate list is refused unchanged."
  },
  {
   "property": "C39",
   "status": "partial",
   "theorems": [
    "C39_mvmult_partial",
    "C39_size_partial",
    "C39_coordinate_list",
    "C39_ysize_refuted",
    "C39_csr_trans_refuted",
    "C39_csr_trans_outside_refuted",
    "C39_row_vector_refuted"
   ],
   "note": "Proved for every valid CSC or CSR matrix of any shape, contiguous vectors, flags 0 and ARMAS_TRANS; transposed in row format for square matrices only. Refuted for the rest: the transposed product in row format scales rows instead of cols elements of y (too few, or cells after y); the length of y is not checked (precedence of ?: in the test), so cells after a short y are written; a row vector of a larger matrix is treated as if its elements were adjacent."
  },
  {
   "property": "C40",
   "status": "partial",
   "theorems": [
    "C40_mvmult_trm_partial",
    "C40_mvsolve_trm_partial",
    "C40_refused",
    "C40_alpha_refuted",
    "C40_unit_refuted",
    "C40_empty_refuted"
   ],
   "note": "Proved for sorted square matrices with a full diagonal, both formats, both triangles, transposed or not: the solve with unit or nonzero diagonal, the product with a stored diagonal and, for five of the eight kernels, with a unit one. Refuted: the solve ignores alpha; the product with UNIT reads after the index array in the other three kernels; the solve of order 0 reads an element."
  },
  {
   "property": "C41",
   "status": "partial",
   "theorems": [
    "C41_addto",
    "C41_addto_transb_partial",
    "C41_addto_transa_partial",
    "C41_refused",
    "C41_add_refuted",
    "C41_exact_fit_refuted",
    "C41_transa_refuted",
    "C41_both_refuted",
    "C41_kind_refuted"
   ],
   "note": "armassp_addto_w without transposition: in full (result valid, right element at every position) whenever the target has one place more than the sum needs. Transposed second operand for ascending square matrices; transposed first operand only for CSR with alpha = beta (line 106 uses beta). Refuted: exact-fit target aborts, armassp_add always reads through a null pointer, transposed A ignores alpha or computes nothing, both transposed, a target of the other kind."
  },
  {
   "property": "C42",
   "status": "partial",
   "theorems": [
    "C42_multto_partial",
    "C42_refused",
    "C42_mult_empty_refuted",
    "C42_alpha_refuted",
    "C42_shape_refuted",
    "C42_workspace_refuted",
    "C42_empty_refuted"
   ],
   "note": "armassp_multto_w: result valid with the right element at every position in all eight variants, under the restrictions right_variant states (CSR untransposed only for alpha = 1; transposed A of CSR square, and so on), ascending lines and a free place in transposed operands, workspace as the argument order needs. Refuted outside: alpha ignored, non-square operands, workspace of the queried size, workspace not released, no columns; armassp_mult always returns an empty matrix."
  },
  {
   "property": "C43",
   "status": "partial",
   "theorems": [
    "C43_mult_diag",
    "C43_add_diag_partial",
    "C43_coordinate_list",
    "C43_add_diag_refuted",
    "C43_add_diag_overread_refuted",
    "C43_hasdiag_partial",
    "C43_hasdiag_csc_refuted",
    "C43_hasdiag_csr_refuted",
    "C43_hasdiag_coo_refuted",
    "C43_hasdiag_coo_partial",
    "C43_hasdiag_coo_sign_refuted",
    "C43_nz_partial",
    "C43_nz_refuted"
   ],
   "note": "Scaling rows or columns: in full for compressed matrices. add_diag, nz: for sorted lines that hold an element on or after the one looked for; refuted otherwise (an element of the next line is changed; reads after the index array). hasdiag: exact for CSC on and above, CSR on and below the main diagonal and for coordinate lists without duplicates on and below it; refuted for the other sides and for duplicates."
  },
  {
   "property": "C44",
   "status": "partial",
   "theorems": [
    "C44_bounded_partial",
    "C44_within_text",
    "C44_tokens",
    "C44_empty_buffer_refuted"
   ],
   "note": "Model MIo.v of the token reader over any character stream. Bounded, terminating and correct for every text made of tokens; buffers of length 0 are written outside (C44_empty_buffer_refuted)."
  },
  {
   "property": "C45",
   "status": "partial",
   "theorems": [
    "C45_read_dense",
    "C45_roundtrip_partial",
    "C45_nonfinite_refuted",
    "C45_file",
    "C45_buffer",
    "C45_precision_refuted"
   ],
   "note": "Round trip proved for every stream, and for files and buffers, under the hypothesis that the number formatting round-trips and gives at most 62 characters; it is false for elements that are not finite (written as nothing) and the format \"%.14g\" itself does not round-trip (g14 models it on nonnegative integers)."
  },
  {
   "property": "C46",
   "status": "partial",
   "theorems": [
    "C46_coords_partial",
    "C46_row_bound_refuted",
    "C46_col_bound_refuted"
   ],
   "note": "Listed coordinates inside are stored, the last one wins; coordinates that differ from the bounds are discarded. Row number rows overwrites another element and column number cols is stored outside (bounds tested with > instead of >=)."
  },
  {
   "property": "C47",
   "status": "proved",
   "theorems": [
    "C47_roundtrip",
    "C47_second_load_fails",
    "C47_result",
    "C47_coordinate",
    "C47_garbage_accepted"
   ],
   "note": "In full: general and symmetric layout, any shape, relative to conversions of single values that round-trip. Also: coordinate files load as they say; and three ways in which the load differs from its documentation (return value, *flags, the line after the matrix is consumed so that a second matrix in the file cannot be read; a line without a number repeats the previous value)."
  },
  {
   "property": "C48",
   "status": "partial",
   "theorems": [
    "C48_bounded",
    "C48_in_order",
    "C48_pushback_partial",
    "C48_put",
    "C48_high_byte_refuted",
    "C48_unget_at_start_refuted"
   ],
   "note": "Buffer and string streams. Reading in order, bounds and push-back of bytes up to 127 proved; bytes from 128 on are delivered as negative numbers, i.e. as the end (C48_high_byte_refuted); a push-back at the start is lost (C48_unget_at_start_refuted)."
  },
  {
   "property": "C49",
   "status": "proved",
   "theorems": [
    "C49_lufactor_nopiv",
    "C49_lufactor"
   ],
   "note": "Proved for every matrix, blocked and unblocked. With pivoting: P*A = L*U for the recorded interchanges for every matrix over an ordered field, singular ones included, and every multiplier is at most one. Without pivoting: whenever A has a factorization with nonzero pivots, exactly that one is stored. Exact arithmetic; a work buffer is available."
  },
  {
   "property": "C50",
   "status": "partial",
   "theorems": [
    "C50_lusolve_partial",
    "C50_system_partial",
    "C50_size",
    "C50_trans_refuted"
   ],
   "note": "Without the transpose flag proved, also as factorization plus solution of the original system. With ARMAS_TRANS the interchanges are applied first and the two triangles in the wrong order (C50_trans_refuted)."
  },
  {
   "property": "C51",
   "status": "partial",
   "theorems": [
    "C51_cholesky_lower",
    "C51_cholesky_upper_partial",
    "C51_unique",
    "C51_size",
    "C51_cholsolve",
    "C51_system",
    "C51_cholsolve_size",
    "C51_zero_pivot_refuted"
   ],
   "note": "Lower: every path, in full. Upper: unblocked in full, blocked under the side condition of C67 (tiles of the triangle update smaller than the recursion threshold). Errors are proved to mean not positive definite, and the factor is unique. Refuted: the lower version accepts a zero pivot, divides by it and reports success. Pivoted Cholesky is not modelled."
  },
  {
   "property": "C52",
   "status": "proved",
   "theorems": [
    "C52_sort_vec"
   ],
   "note": ""
  },
  {
   "property": "C53",
   "status": "partial",
   "theorems": [
    "C53_qsort_partial",
    "C53_qsort_short_partial",
    "C53_not_vector",
    "C53_duplicates_refuted",
    "C53_read_past_end_refuted"
   ],
   "note": "Proved for vectors without equal elements and for fewer than eight elements. With equal elements the partition loop may not end (C53_duplicates_refuted), and the scan from the left reads the element behind the last one (C53_read_past_end_refuted)."
  },
  {
   "property": "C54",
   "status": "proved",
   "theorems": [
    "C54_sort_eigenvec"
   ],
   "note": ""
  },
  {
   "property": "C55",
   "status": "partial",
   "theorems": [
    "C55_size_partial",
    "C55_size_refuted",
    "C55_init_partial",
    "C55_init_refuted"
   ],
   "note": "Proved when rows*cols and step*cols fit in int; otherwise signed overflow, see the _refuted theorems."
  },
  {
   "property": "C56",
   "status": "proved",
   "theorems": [
    "C56_norm_one",
    "C56_norm_inf"
   ],
   "note": ""
  },
  {
   "property": "C57",
   "status": "proved",
   "theorems": [
    "C57_save_restore"
   ],
   "note": ""
  },
  {
   "property": "C58",
   "status": "partial",
   "theorems": [
    "C58_abs_sort_partial",
    "C58_abs_sort_signs_refuted"
   ],
   "note": "The absolute values are proved ordered and a permutation; the elements themselves are replaced by their absolute values, see C58_abs_sort_signs_refuted."
  },
  {
   "property": "C59",
   "status": "partial",
   "theorems": [
    "C59_mkcopy",
    "C59_copy_coo_refuted"
   ],
   "note": "Full for the compressed formats. The copy of a coordinate list is empty, its count is not set (C59_copy_coo_refuted)."
  },
  {
   "property": "C60",
   "status": "partial",
   "theorems": [
    "C60_todense",
    "C60_todense_mismatch",
    "C60_duplicates_refuted",
    "C60_not_cleared_refuted"
   ],
   "note": "Proved for matrices that store no position twice and dense matrices that were zero before; otherwise only the stored positions are set (C60_not_cleared_refuted) and the last value stored for a position wins (C60_duplicates_refuted)."
  },
  {
   "property": "C61",
   "status": "partial",
   "theorems": [
    "C61_holder_runs",
    "C61_readers_woken_partial",
    "C61_second_reader_refuted",
    "C61_writers_never_woken",
    "C61_writer_lost_refuted"
   ],
   "note": "Readers: proved when all writers broadcast, as the callers in src/workers do; with broadcast = 0 a second reader sleeps on beside an item (C61_second_reader_refuted). Writers: false, no function signals the condition variable full, so a writer asleep in taskq_enqueue (used by the transient scheduler) never wakes without a spurious wake-up (C61_writers_never_woken, C61_writer_lost_refuted). The holder of the mutex can always go on (C61_holder_runs, uses the axiom classic of the standard library to decide whether a signal finds a sleeper)."
  },
  {
   "property": "C62",
   "status": "partial",
   "theorems": [
    "C62_released_unused",
    "C62_no_abort_partial",
    "C62_two_queues_refuted"
   ],
   "note": "Without spurious wake-ups: no worker holds a task when the tasks are released (C62_released_unused), for one or two queues. That the check passes is proved for one queue per task and false with ARMAS_OSCHED_TWO: worker_all_ready polls 50 times only and the assertion aborts the program (with NDEBUG the memory is freed while the second worker still uses it)."
  },
  {
   "property": "C63",
   "status": "partial",
   "theorems": [
    "C63_string_roundtrip_partial",
    "C63_control_refuted",
    "C63_unicode_refuted"
   ],
   "note": "Printable ASCII and the escapes of \\b, \\t, \\n, \\r. Other control characters are dropped by the writer; \\u escapes are read in decimal."
  },
  {
   "property": "C64",
   "status": "partial",
   "theorems": [
    "C64_unknown_partial",
    "C64_prefix_refuted"
   ],
   "note": "Refused with -2 for names of which no known name is a prefix; names that begin with a known one are accepted."
  },
  {
   "property": "C65",
   "status": "partial",
   "theorems": [
    "C65_solve_trm_partial",
    "C65_solve_trm_naive",
    "C65_solve_trm_frame_partial",
    "C65_solve_trm_errors",
    "C65_no_triangle_refuted",
    "C65_threshold_one_refuted",
    "C65_recursive_alpha_refuted"
   ],
   "note": "Proved for LEFT and RIGHT, all triangles, transposed or not, unit or not: unblocked for every alpha, blocked and recursive for alpha = 1 or blocks smaller than the recursion threshold. A zero on the diagonal only costs the equations: the call still returns 0 and changes nothing but B and the buffer. Refuted: the recursion with alpha <> 1 multiplies the update of the second half by alpha once more; without UPPER or LOWER the blocked version does nothing and returns 0; threshold one does not end."
  },
  {
   "property": "C66",
   "status": "partial",
   "theorems": [
    "C66_conf_error_partial",
    "C66_return_value_refuted",
    "C66_nopiv_refuted"
   ],
   "note": "With pivoting conf->error is set exactly when a diagonal element of U is zero. The value returned tells only whether the last pivot is zero (C66_return_value_refuted); without pivoting nothing is reported (C66_nopiv_refuted)."
  },
  {
   "property": "C67",
   "status": "partial",
   "theorems": [
    "C67_update_trm_naive",
    "C67_update_trm_lower",
    "C67_update_trm_upper_partial",
    "C67_update_sym_partial",
    "C67_errors",
    "C67_odd_split_refuted",
    "C67_zero_limit_refuted",
    "C67_empty_refuted"
   ],
   "note": "Proved for every path of the lower triangle and for the naive path. Upper triangle: with recursion when the order halves evenly down to the threshold, blocked when the block size is below the threshold. Refuted: the upper recursion with an odd split updates wrong rows; a threshold of zero does not end; with inner dimension 0 C is not multiplied by beta."
  },
  {
   "property": "C68",
   "status": "partial",
   "theorems": [
    "C68_mvmult_sym_partial",
    "C68_coordinate_list",
    "C68_missing_diagonal_refuted"
   ],
   "note": "Proved for sorted square matrices with a full diagonal in both formats and for both triangles. Refuted for a missing diagonal element in the last line: the index array is read after its end."
  },
  {
   "property": "C69",
   "status": "partial",
   "theorems": [
    "C69_load",
    "C69_roundtrip_refuted",
    "C69_empty_refuted"
   ],
   "note": "Refuted for every matrix with elements: the writer counts from 0, the reader from 1. Loading files that count from 1 is proved."
  },
  {
   "property": "C70",
   "status": "partial",
   "theorems": [
    "C70_ext_sum_partial",
    "C70_ext_sum_simple_partial",
    "C70_ext_sum_errors",
    "C70_ext_sum_alpha_refuted"
   ],
   "note": "Proved for alpha = 1, float and double, with and without ARMAS_ABS. Refuted for other multipliers: the code stores q + alpha*l and drops the high part of alpha*h, so 2*(1) gives 0. Arithmetic: round to nearest even with subnormals, no overflow."
  },
  {
   "property": "C71",
   "status": "proved",
   "theorems": [
    "C71_ext_adot",
    "C71_ext_adot_double",
    "C71_ext_adot_errors"
   ],
   "note": "In full as long as nothing overflows: double with Dekker's product and with fused operations, float with fused operations and with the split factor 2^14+1 of the code (not the 2^12+1 of the literature; the pair then misses up to 16u^2 of the product, which the bound contains as eps)."
  },
  {
   "property": "C72",
   "status": "proved",
   "theorems": [
    "C72_ext_axpby",
    "C72_ext_axpby_errors"
   ],
   "note": "In full as long as nothing overflows, all four builds."
  },
  {
   "property": "C73",
   "status": "proved",
   "theorems": [
    "C73_dot",
    "C73_adot"
   ],
   "note": "In full as long as nothing overflows, for every precision above 3 bits; products and additions rounded separately (no contraction by the compiler)."
  },
  {
   "property": "C74",
   "status": "proved",
   "theorems": [
    "C74_asum",
    "C74_asum_kahan"
   ],
   "note": "In full as long as nothing overflows. Compensated sum: 6u + 18nu^2 for nu <= 1."
  },
  {
   "property": "C75",
   "status": "partial",
   "theorems": [
    "C75_house_unit_partial",
    "C75_house_nonneg_refuted",
    "C75_house_negative_refuted"
   ],
   "note": "In full for a vector x that is not zero (orthogonality, H(a;x) = (+/-beta;0), sign, rescaling loop, frame). Refuted: for x = 0 the routine returns H = I and ignores ARMAS_NONNEG (beta stays negative) and ARMAS_HHNEGATIVE."
  },
  {
   "property": "C76",
   "status": "partial",
   "theorems": [
    "C76_house_unscaled_partial",
    "C76_house_unscaled_refuted"
   ],
   "note": "In full for x not zero. Refuted: for x = 0 the vector v is left as the input, so I - 2*v*v^T is neither orthogonal nor maps the vector to beta (x = 0, a = 2)."
  },
  {
   "property": "C77",
   "status": "partial",
   "theorems": [
    "C77_houseapply2x1",
    "C77_houseapply_square_partial",
    "C77_houseapply_vector_partial",
    "C77_houseapply_size_refuted",
    "C77_houseapply_null_refuted",
    "C77_houseapply_unscaled_refuted"
   ],
   "note": "armas_houseapply2x1 in full, both sides. armas_houseapply: square matrices with exactly one of LEFT/RIGHT and ARMAS_UNIT, and vectors. Refuted: the size check uses the wrong side of A, so a reflector of the right order is refused for every matrix that is not square; a null tau never works; without ARMAS_UNIT a matrix gets I - tau*v*v^T instead of I - 2*v*v^T."
  },
  {
   "property": "C78",
   "status": "partial",
   "theorems": [
    "C78_mult_trm_partial",
    "C78_mult_trm_naive",
    "C78_mult_trm_errors",
    "C78_threshold_one_refuted",
    "C78_no_triangle_refuted"
   ],
   "note": "Proved for LEFT and RIGHT, both triangles, transposed or not, unit or not, every alpha, over any commutative ring: blocked, recursive and unblocked. Refuted: with neither UPPER nor LOWER the unblocked version takes the lower triangle while the recursive one gives a result that belongs to neither triangle; with a recursion threshold of one the recursion does not end."
  },
  {
   "property": "C79",
   "status": "partial",
   "theorems": [
    "C79_qrfactor_w_partial",
    "C79_qrfactor_partial",
    "C79_qrfactor_errors",
    "C79_qr_ononneg_refuted",
    "C79_qr_nonneg_refuted",
    "C79_qr_nomem_refuted",
    "C79_qr_rowtau_refuted",
    "C79_qr_empty_refuted"
   ],
   "note": "Proved for all M >= N >= 1, block sizes and workspaces, blocked and unblocked, exact arithmetic over any ordered field with square roots. Refuted: the documented option ARMAS_ONONNEG (0x4000) has no effect, ARMAS_NONNEG is what is looked at, and neither helps when a column is zero below the diagonal; a row vector is accepted as tau and the result is wrong; without scratch memory for the products the blocked version returns 0 with a wrong R; a matrix without columns is refused with EWORK."
  },
  {
   "property": "C80",
   "status": "partial",
   "theorems": [
    "C80_qrreflector_partial",
    "C80_qrreflector_errors",
    "C80_qrreflector_cleared_refuted",
    "C80_qrreflector_square_refuted"
   ],
   "note": "Proved when T is zero beforehand in the columns with tau = 0 and, for square A, the last tau is 0. Refuted otherwise: T is not cleared, so the last column for a factored square matrix keeps what was in T; for a square matrix with a non-zero last tau that column is not scaled."
  },
  {
   "property": "C81",
   "status": "partial",
   "theorems": [
    "C81_qrmult_w_partial",
    "C81_qrmult_partial",
    "C81_qrmult_errors",
    "C81_orthogonal",
    "C81_factor_mult",
    "C81_sqrt",
    "C81_sqrt_refuted",
    "C81_qrmult_empty_refuted",
    "C81_qrmult_rowtau_refuted",
    "C81_qrmult_nomem_refuted"
   ],
   "note": "Proved for all four products, blocked and unblocked, all sizes and workspaces, exact arithmetic over any field, given that the square root used to choose the block size is not too large; C81_sqrt proves that of float arithmetic below 2^52 (double) and 2^22 (float), C81_sqrt_refuted gives a size for which the float version chooses blocks that do not fit into the workspace. Refuted further: a row vector is accepted as tau and read as a column; without scratch memory the blocked version returns 0 with a wrong result; an empty C is refused with EWORK. A tau longer than the columns of A, which armas_qrfactor takes, is refused with ESIZE (C81_qrmult_errors)."
  },
  {
   "property": "C82",
   "status": "partial",
   "theorems": [
    "C82_qrsolve_w_partial",
    "C82_qrsolve_partial",
    "C82_qrsolve_errors",
    "C82_least_squares_partial",
    "C82_min_norm_partial",
    "C82_tau_refuted",
    "C82_singular_refuted",
    "C82_wide_refuted"
   ],
   "note": "Proved from the factorization to the solution, for all sizes, block sizes and workspaces, exact arithmetic over an ordered field with square roots: optimality against every other vector, uniqueness, length of the residual, minimum norm. Partial because the return value does not tell success: a tau of another length, a zero on the diagonal of R, or more columns than rows are not reported (C82_tau_refuted, C82_singular_refuted, C82_wide_refuted; the last writes outside B)."
  },
  {
   "property": "C83",
   "status": "partial",
   "theorems": [
    "C83_qrbuild_w_partial",
    "C83_qrbuild_partial",
    "C83_qrbuild_errors",
    "C83_factor_build",
    "C83_empty_refuted",
    "C83_stale_refuted",
    "C83_tau_refuted",
    "C83_count_refuted"
   ],
   "note": "C83_factor_build is proved in full: factor and form Q, all sizes, block sizes, any prior workspace contents. For reflectors from elsewhere proved when those with tau = 0 have the vector (1,0,0,...), as armas_qrfactor leaves them (C79); refuted otherwise: the triangular factor is not cleared between blocks (C83_stale_refuted). Not reported as errors: a tau shorter than the columns of A, for which a reflector is left out (C83_tau_refuted), and K larger than the columns, which writes outside A (C83_count_refuted); a matrix without columns is refused with EWORK."
  },
  {
   "property": "C84",
   "status": "partial",
   "theorems": [
    "C84_mult_sym_partial",
    "C84_default_config",
    "C84_mult_sym_errors",
    "C84_overlap_refuted",
    "C84_right_refuted",
    "C84_overrun_refuted",
    "C84_no_triangle_refuted"
   ],
   "note": "Proved for all sizes when the copies of the diagonal block of A and of the block of B beside it fit in their places, which the default configuration guarantees for every buffer (C84_default_config). Refuted for other configurations accepted by the library: MB > KB makes the copied columns overlap (C84_overlap_refuted), with ARMAS_RIGHT NB > MB lets the copy of B overwrite that of A (C84_right_refuted) and MB > NB writes behind the scratch buffer (C84_overrun_refuted). Without LOWER and UPPER diagonal and other blocks are read from different triangles (C84_no_triangle_refuted). Flags ABSA/ABSB (not documented for this function) are excluded."
  },
  {
   "property": "C85",
   "status": "partial",
   "theorems": [
    "C85_update2_sym_partial",
    "C85_update2_sym_errors",
    "C85_small_limit_refuted",
    "C85_empty_refuted"
   ],
   "note": "Proved for all sizes with inner dimension at least 1, on the unblocked path and, when env->lb >= 2, on the recursive one. Refuted otherwise: with lb <= 1 the recursion does not end for any size (C85_small_limit_refuted), with inner dimension 0 C is not scaled by beta (C85_empty_refuted). A size error returns -1, not -ARMAS_ESIZE."
  },
  {
   "property": "C86",
   "status": "partial",
   "theorems": [
    "C86_dgemm_partial",
    "C86_dgemm_trans_refuted",
    "C86_dgemm_trans_sample_refuted",
    "C86_dgemm_conj_refuted",
    "C86_cblas_gemm_col_partial",
    "C86_cblas_gemm_row_refuted",
    "C86_cblas_gemm_row_square_refuted",
    "C86_cblas_gemm_row_sample_refuted",
    "C86_dsymm",
    "C86_cblas_symm_row",
    "C86_cblas_symm_col_partial",
    "C86_cblas_symm_col_refuted",
    "C86_cblas_symm_col_sample_refuted",
    "C86_dsyrk_partial",
    "C86_dsyr2k_partial",
    "C86_dsyr2k_ldb_refuted"
   ],
   "note": "Proved: dsymm, cblas_dsymm by rows, cblas_dgemm by columns, dgemm without transposition or with square operands, dsyrk, dsyr2k with ldb = lda. Refuted: dgemm with 'T' for an operand that is not square does nothing; 'C' is taken as 'N'; cblas_dgemm by rows does nothing unless m = n = k and then stores the transposed result; cblas_dsymm by columns does nothing unless m = n; dsyr2k reads B with lda. Not modelled: cblas_syrk and cblas_syr2k, which no header names and which do not compile; dsyr2k is exported as dsyrk2_."
  },
  {
   "property": "C87",
   "status": "partial",
   "theorems": [
    "C87_dtrmm_partial",
    "C87_dtrsm_partial",
    "C87_cblas_trmm_col_partial",
    "C87_cblas_trsm_col_partial",
    "C87_cblas_row_refuted",
    "C87_cblas_trmm_row_square_refuted",
    "C87_cblas_trsm_row_square_refuted",
    "C87_trans_c_refuted",
    "C87_cblas_row_sample_refuted"
   ],
   "note": "Proved: dtrmm and dtrsm and their cblas forms by columns. Refuted: by rows nothing is done unless m = n and then op(A) is transposed; 'C' is taken as 'N'. dtrsm with alpha <> 1 as far as C65."
  },
  {
   "property": "C88",
   "status": "partial",
   "theorems": [
    "C88_daxpy_partial",
    "C88_dswap_partial",
    "C88_ddot_partial",
    "C88_dcopy",
    "C88_drot",
    "C88_int_refuted",
    "C88_dscal_partial",
    "C88_dasum_partial",
    "C88_dnrm2_partial",
    "C88_idamax_partial",
    "C88_idamax_refuted",
    "C88_negative_refuted",
    "C88_drotg_partial",
    "C88_drotg_refuted"
   ],
   "note": "Proved for n >= 0, nonzero increments of any sign (two vectors) and positive increments (one vector). Refuted: daxpy, dswap, ddot multiply the increments as int, which overflows for increments of 65536; dscal, dasum, dnrm2 and idamax with a negative increment use elements below the vector; idamax counts from 0; drotg does not store r. Not expressed: dscal_ takes its arguments as (n, x, incx, alpha) instead of (n, alpha, x, incx), a mismatch of C types the model has no notion of. Not compiled and not modelled: the cblas_ names, xROTM, xROTMG."
  },
  {
   "property": "C89",
   "status": "partial",
   "theorems": [
    "C89_gvcompute",
    "C89_gvrotate_norm",
    "C89_gvrot_vec",
    "C89_gvleft_partial",
    "C89_gvright_partial",
    "C89_gvleft_refuted",
    "C89_gvupdate_forward_partial",
    "C89_gvupdate_backward_partial",
    "C89_gvupdate_backward_refuted",
    "C89_gvupdate_limit_refuted"
   ],
   "note": "Proved for ranges within the matrix and sequences with start + nrot below the number of rows (columns). Refuted: armas_gvleft and armas_gvright use elements outside of the matrix if the range is too long (the clipped end is computed but not used); armas_gvupdate with the documented maximum of rotations uses row A->rows; a backward update returns 0, not the number of rotations. The AVX version of gvrotg is not modelled."
  },
  {
   "property": "C90",
   "status": "partial",
   "theorems": [
    "C90_cholupdate",
    "C90_factor",
    "C90_flags_refuted",
    "C90_size_refuted"
   ],
   "note": "Proved for square A, a vector of A's size, either triangle. Refuted: with flags that name no triangle armas_cholesky factors the upper and armas_cholupdate updates the lower triangle; a vector of another size is not reported and elements outside of it are used."
  },
  {
   "property": "C91",
   "status": "partial",
   "theorems": [
    "C91_inverse_trm_partial",
    "C91_singular",
    "C91_not_square",
    "C91_unit_refuted",
    "C91_recursive_refuted"
   ],
   "note": "Partial because the full claim is false of the code. Refuted: with ARMAS_UNIT the products use the stored diagonal, so the result is wrong unless that diagonal holds ones; with blocks not smaller than the limit of the recursive solver the solve with alpha = -1 is wrong (C65_recursive_alpha_refuted). Proved for everything else, with ARMAS_UNIT when the stored diagonal holds ones."
  },
  {
   "property": "C92",
   "status": "partial",
   "theorems": [
    "C92_luinverse_w_partial",
    "C92_luinverse_partial",
    "C92_factor_invert_partial",
    "C92_errors",
    "C92_recursive_refuted"
   ],
   "note": "Proved for the unblocked algorithm, and for the blocked one when the solver is naive or the triangles it solves stay below its limit: fewer than blas2min rows for the recursive solver, otherwise min(nb, rows) < blas2min, which the defaults meet for every size. Outside that the claim is false of the code: the result is wrong (C92_recursive_refuted, through C65_recursive_alpha_refuted). A zero on the diagonal of U is not covered."
  },
  {
   "property": "C93",
   "status": "partial",
   "theorems": [
    "C93_cholinverse_w_partial",
    "C93_cholinverse_partial",
    "C93_factor_invert_partial",
    "C93_singular_partial",
    "C93_errors",
    "C93_blocks_refuted"
   ],
   "note": "Proved for the unblocked algorithm and, when spd_blocks holds, for the blocked one. spd_blocks asks that the block sizes of the symmetric product fit in the scratch buffer (C84; true of the default configuration, C84_default_config) and, for an upper triangle, that the update of the diagonal block is right (upper_ok, see C67). A zero on the diagonal of the factor is reported as ARMAS_ESINGULAR under the same conditions (C93_singular_partial). In other configurations the claim can be false: with kb smaller than nb the blocked version returns 0 and a matrix that is not the inverse (C93_blocks_refuted). Whether upper_ok is needed is open: no wrong result was found for 5 by 5 factors without it."
  }
 ]
}