{
 "C04": "Full for the downward traversal and for both traversal loops; the continue step towards the origin gives the block ABL the wrong width (partition.h:492), refuted by C04_continue_up_refuted.",
 "C17": "Proved for contiguous vectors. False for a row of a matrix: the pointer is advanced by one element instead of the stride after the first element (iamax.c:130), see C17_iamin_refuted.",
 "C10": "Full for vectors, whole and symmetric matrices and the lower part. False for UPPER (only diagonal elements are scaled) and for LOWER|UNIT on tall matrices (last column left out), see the _refuted theorems.",
 "C11": "Proved for vectors, whole matrices, LOWER, and UPPER on matrices that are not wide. False for UPPER|UNIT, UPPER on wide matrices (writes below the view) and LOWER|UNIT on tall ones, see the _refuted theorems.",
 "C12": "Proved for all shapes and flags except the combinations refuted: a transposed B is not transposed when LOWER or UPPER is given, and a 1x1 B drops the factor alpha.",
 "C13": "set_values and set_all full; make_trm UPPER|UNIT and apply UPPER write below wide views, see the _refuted theorems.",
 "C25": "Proved when nblocks*ntotal fits in int and at least one thread is configured. False otherwise: the product overflows int (C25_overflow_refuted) and zero threads divide by zero (C25_zero_threads_refuted).",
 "C27": "Full for every pivot vector given with FORWARD or BACKWARD. The round trip needs as many pivots as rows (C27_round_trip_refuted), and armas_pivot_rows compares the whole flag word with ARMAS_PIVOT_BACKWARD (C27_pivot_rows_flags_refuted).",
 "C29": "Full for sizes that do not wrap in size_t; count * size is not checked, see C29_reserve_wrap_refuted.",
 "C30": "Proved for the default configuration and for the cache sizes stated in the theorems; small buffers overlap, tiny ones give empty blocks and fixed blocks in a user workspace run over its end, see the _refuted theorems. The double arithmetic of the split is modelled exactly, without rounding.",
 "C55": "Proved when rows*cols and step*cols fit in int; otherwise signed overflow, see the _refuted theorems.",
 "C53": "Proved for vectors without equal elements and for fewer than eight elements. With equal elements the partition loop may not end (C53_duplicates_refuted), and the scan from the left reads the element behind the last one (C53_read_past_end_refuted).",
 "C58": "The absolute values are proved ordered and a permutation; the elements themselves are replaced by their absolute values, see C58_abs_sort_signs_refuted.",
 "C19": "Full for every flag word without ABS, non-empty operands and every threshold but 1 (where the recursion never ends, C19_threshold_one_refuted). An empty product leaves y unscaled (C19_empty_refuted); ABS without TRANS writes one element too far (C19_abs_refuted).",
 "C20": "Full for thresholds of two or more and for the naive strategy; with smaller thresholds the recursion never ends (C20_threshold_one_refuted).",
 "C22": "Full for flag words that do not give UPPER and LOWER together and for every threshold but 1 (where the recursion never ends, C22_threshold_one_refuted). TRANS is obeyed only together with UPPER or LOWER. With UPPER|LOWER the strategies disagree (C22_both_triangles_refuted).",
 "C23": "Full for flag words that do not give UPPER and LOWER together, a non-zero stored diagonal and every threshold but 1 (where the recursion never ends, C23_threshold_one_refuted). TRANS is obeyed only together with UPPER or LOWER.",
 "C21": "Full for flag words naming exactly one triangle (the updates: not both) and thresholds of two or more; only the named triangle needs to be allocated. Below that the product never ends (C21_threshold_one_refuted); without a triangle flag the product depends on the threshold (C21_no_triangle_flag_refuted); the rank-2 update accepts vectors of the wrong length (C21_update2_size_refuted); the recursive rank-1 update misses elements of a trapezium (C21_trapezoid_recursive_refuted).",
 "C35": "Every sequence of appends from every ready coordinate list, under every pattern of failing allocations. Positions outside the matrix are accepted (C35_position_unchecked_refuted) and a matrix created with nnz = 0 loses its kind and size (C35_empty_new_refuted). The int counters are unbounded in the model.",
 "C36": "Full for conversions between different formats of matrices with at least one stored element. A matrix without elements gives null (C36_empty_refuted), the same format gives an empty matrix (C36_same_format_refuted), and converting into a used matrix goes wrong (C36_reuse_target_refuted).",
 "C37": "Full for compressed matrices with at least one stored element; without elements the result is null (C37_empty_refuted).",
 "C38": "Full; a coordinate list is refused unchanged.",
 "C59": "Full for the compressed formats. The copy of a coordinate list is empty, its count is not set (C59_copy_coo_refuted).",
 "C60": "Proved for matrices that store no position twice and dense matrices that were zero before; otherwise only the stored positions are set (C60_not_cleared_refuted) and the last value stored for a position wins (C60_duplicates_refuted).",
 "C24": "All sizes, all transpose flags (the conjugate ones too, for real types), every block configuration whose computed block sizes are positive and at least a cache line high (C24_default_config: the default configuration is one for 4- and 8-byte elements). Exact arithmetic over any commutative ring; the portable kernels (nosimd/mult.h). The accelerator path (off by default) is not modelled. False for: ABSA or ABSB alone (C24_abs_refuted), TRANSA with CTRANSA (C24_ctrans_refuted), an empty inner dimension (C24_empty_refuted), configurations that give blocks of 0 columns (C24_empty_block_refuted).",
 "C26": "C26_interleaving is general: programs with write footprints no other program touches, every interleaving of single accesses. The matrix product by workers or threads (compute_block of workers/gemm.c and threaded/gemm.c) is an instance for every partition of C, every assignment of the blocks to workers and every usable per-worker scratch buffer. False with CTRANSA/CTRANSB (C26_ctrans_refuted). Missing: the other parallel operations, configurations without usable blocks.",
 "C31": "All functions of queue.h as programs of single accesses to shared variables and pthread calls (MThread.v), any number of threads, every interleaving (sequential consistency; the absence of data races is part of the claim), spurious wake-ups and timeouts included, every capacity below 2^32. Return codes of the timed waits (which no caller uses) are not modelled.",
 "C61": "Readers: proved when all writers broadcast, as the callers in src/workers do; with broadcast = 0 a second reader sleeps on beside an item (C61_second_reader_refuted). Writers: false, no function signals the condition variable full, so a writer asleep in taskq_enqueue (used by the transient scheduler) never wakes without a spurious wake-up (C61_writers_never_woken, C61_writer_lost_refuted). The holder of the mutex can always go on (C61_holder_runs, uses the axiom classic of the standard library to decide whether a signal finds a sleeper).",
 "C33": "mutex_lock and mutex_unlock of sync.h as programs of atomic operations and futex calls (MMutex.v), any number of threads, every interleaving, spurious wake-ups included. The plain store in mutex_unlock is one atomic write in the model. Fairness (no starvation) is not claimed.",
 "C34": "Counter of counter.h in its use by the parallel product: one waiting thread, any number of workers and tasks, every interleaving. Range, absence of stuck states and a bound on the number of steps hold with spurious wake-ups too; release only after the last task is proved without spurious wake-ups and false with them, because armas_counter_wait tests the counter only once (C34_spurious_refuted).",
 "C32": "Persistent workers (workers.c) and the caller (gemm.c) as a transition system (MWorkers.v) with atomic queue and counter operations (C31, C34) and single accesses to the task fields; any number of workers and tasks, any routing, any capacity, every interleaving. At most once holds always; exactly once when the caller is told is proved without spurious wake-ups and false with them (C32_early_refuted, the fault of armas_counter_wait shown in C34). Progress, a bound on the number of state-changing steps, and the choice of queues (C32_targets) are proved. The transient scheduler is not covered.",
 "C62": "Without spurious wake-ups: no worker holds a task when the tasks are released (C62_released_unused), for one or two queues. That the check passes is proved for one queue per task and false with ARMAS_OSCHED_TWO: worker_all_ready polls 50 times only and the assertion aborts the program (with NDEBUG the memory is freed while the second worker still uses it).",
 "C44": "Model MIo.v of the token reader over any character stream. Bounded, terminating and correct for every text made of tokens; buffers of length 0 are written outside (C44_empty_buffer_refuted).",
 "C48": "Buffer and string streams. Reading in order, bounds and push-back of bytes up to 127 proved; bytes from 128 on are delivered as negative numbers, i.e. as the end (C48_high_byte_refuted); a push-back at the start is lost (C48_unget_at_start_refuted).",
 "C45": "Round trip proved for every stream, and for files and buffers, under the hypothesis that the number formatting round-trips and gives at most 62 characters; it is false for elements that are not finite (written as nothing) and the format \"%.14g\" itself does not round-trip (g14 models it on nonnegative integers).",
 "C46": "Listed coordinates inside are stored, the last one wins; coordinates that differ from the bounds are discarded. Row number rows overwrites another element and column number cols is stored outside (bounds tested with > instead of >=).",
 "C63": "Printable ASCII and the escapes of \\b, \\t, \\n, \\r. Other control characters are dropped by the writer; \\u escapes are read in decimal.",
 "C64": "Refused with -2 for names of which no known name is a prefix; names that begin with a known one are accepted.",
 "C65": "Proved for LEFT and RIGHT, all triangles, transposed or not, unit or not: unblocked for every alpha, blocked and recursive for alpha = 1 or blocks smaller than the recursion threshold. A zero on the diagonal only costs the equations: the call still returns 0 and changes nothing but B and the buffer. Refuted: the recursion with alpha <> 1 multiplies the update of the second half by alpha once more; without UPPER or LOWER the blocked version does nothing and returns 0; threshold one does not end.",
 "C49": "Proved for every matrix, blocked and unblocked. With pivoting: P*A = L*U for the recorded interchanges for every matrix over an ordered field, singular ones included, and every multiplier is at most one. Without pivoting: whenever A has a factorization with nonzero pivots, exactly that one is stored. Exact arithmetic; a work buffer is available.",
 "C50": "Without the transpose flag proved, also as factorization plus solution of the original system. With ARMAS_TRANS the interchanges are applied first and the two triangles in the wrong order (C50_trans_refuted).",
 "C66": "With pivoting conf->error is set exactly when a diagonal element of U is zero. The value returned tells only whether the last pivot is zero (C66_return_value_refuted); without pivoting nothing is reported (C66_nopiv_refuted).",
 "C67": "Proved for every path of the lower triangle and for the naive path. Upper triangle: with recursion when the order halves evenly down to the threshold, blocked when the block size is below the threshold. Refuted: the upper recursion with an odd split updates wrong rows; a threshold of zero does not end; with inner dimension 0 C is not multiplied by beta.",
 "C51": "Lower: every path, in full. Upper: unblocked in full, blocked under the side condition of C67 (tiles of the triangle update smaller than the recursion threshold). Errors are proved to mean not positive definite, and the factor is unique. Refuted: the lower version accepts a zero pivot, divides by it and reports success. Pivoted Cholesky is not modelled.",
 "C39": "Proved for every valid CSC or CSR matrix of any shape, contiguous vectors, flags 0 and ARMAS_TRANS; transposed in row format for square matrices only. Refuted for the rest: the transposed product in row format scales rows instead of cols elements of y (too few, or cells after y); the length of y is not checked (precedence of ?: in the test), so cells after a short y are written; a row vector of a larger matrix is treated as if its elements were adjacent.",
 "C40": "Proved for sorted square matrices with a full diagonal, both formats, both triangles, transposed or not: the solve with unit or nonzero diagonal, the product with a stored diagonal and, for five of the eight kernels, with a unit one. Refuted: the solve ignores alpha; the product with UNIT reads after the index array in the other three kernels; the solve of order 0 reads an element.",
 "C68": "Proved for sorted square matrices with a full diagonal in both formats and for both triangles. Refuted for a missing diagonal element in the last line: the index array is read after its end.",
 "C43": "Scaling rows or columns: in full for compressed matrices. add_diag, nz: for sorted lines that hold an element on or after the one looked for; refuted otherwise (an element of the next line is changed; reads after the index array). hasdiag: exact for CSC on and above, CSR on and below the main diagonal and for coordinate lists without duplicates on and below it; refuted for the other sides and for duplicates.",
 "C41": "armassp_addto_w without transposition: in full (result valid, right element at every position) whenever the target has one place more than the sum needs. Transposed second operand for ascending square matrices; transposed first operand only for CSR with alpha = beta (line 106 uses beta). Refuted: exact-fit target aborts, armassp_add always reads through a null pointer, transposed A ignores alpha or computes nothing, both transposed, a target of the other kind.",
 "C42": "armassp_multto_w: result valid with the right element at every position in all eight variants, under the restrictions right_variant states (CSR untransposed only for alpha = 1; transposed A of CSR square, and so on), ascending lines and a free place in transposed operands, workspace as the argument order needs. Refuted outside: alpha ignored, non-square operands, workspace of the queried size, workspace not released, no columns; armassp_mult always returns an empty matrix.",
 "C47": "In full: general and symmetric layout, any shape, relative to conversions of single values that round-trip. Also: coordinate files load as they say; and three ways in which the load differs from its documentation (return value, *flags, the line after the matrix is consumed so that a second matrix in the file cannot be read; a line without a number repeats the previous value).",
 "C69": "Refuted for every matrix with elements: the writer counts from 0, the reader from 1. Loading files that count from 1 is proved.",
 "C70": "Proved for alpha = 1, float and double, with and without ARMAS_ABS. Refuted for other multipliers: the code stores q + alpha*l and drops the high part of alpha*h, so 2*(1) gives 0. Arithmetic: round to nearest even with subnormals, no overflow.",
 "C71": "In full as long as nothing overflows: double with Dekker's product and with fused operations, float with fused operations and with the split factor 2^14+1 of the code (not the 2^12+1 of the literature; the pair then misses up to 16u^2 of the product, which the bound contains as eps).",
 "C72": "In full as long as nothing overflows, all four builds.",
 "C73": "In full as long as nothing overflows, for every precision above 3 bits; products and additions rounded separately (no contraction by the compiler).",
 "C74": "In full as long as nothing overflows. Compensated sum: 6u + 18nu^2 for nu <= 1.",
 "C75": "In full for a vector x that is not zero (orthogonality, H(a;x) = (+/-beta;0), sign, rescaling loop, frame). Refuted: for x = 0 the routine returns H = I and ignores ARMAS_NONNEG (beta stays negative) and ARMAS_HHNEGATIVE.",
 "C76": "In full for x not zero. Refuted: for x = 0 the vector v is left as the input, so I - 2*v*v^T is neither orthogonal nor maps the vector to beta (x = 0, a = 2).",
 "C77": "armas_houseapply2x1 in full, both sides. armas_houseapply: square matrices with exactly one of LEFT/RIGHT and ARMAS_UNIT, and vectors. Refuted: the size check uses the wrong side of A, so a reflector of the right order is refused for every matrix that is not square; a null tau never works; without ARMAS_UNIT a matrix gets I - tau*v*v^T instead of I - 2*v*v^T.",
 "C78": "Proved for LEFT and RIGHT, both triangles, transposed or not, unit or not, every alpha, over any commutative ring: blocked, recursive and unblocked. Refuted: with neither UPPER nor LOWER the unblocked version takes the lower triangle while the recursive one gives a result that belongs to neither triangle; with a recursion threshold of one the recursion does not end.",
 "C79": "Proved for all M >= N >= 1, block sizes and workspaces, blocked and unblocked, exact arithmetic over any ordered field with square roots. Refuted: the documented option ARMAS_ONONNEG (0x4000) has no effect, ARMAS_NONNEG is what is looked at, and neither helps when a column is zero below the diagonal; a row vector is accepted as tau and the result is wrong; without scratch memory for the products the blocked version returns 0 with a wrong R; a matrix without columns is refused with EWORK.",
 "C80": "Proved when T is zero beforehand in the columns with tau = 0 and, for square A, the last tau is 0. Refuted otherwise: T is not cleared, so the last column for a factored square matrix keeps what was in T; for a square matrix with a non-zero last tau that column is not scaled.",
 "C81": "Proved for all four products, blocked and unblocked, all sizes and workspaces, exact arithmetic over any field, given that the square root used to choose the block size is not too large; C81_sqrt proves that of float arithmetic below 2^52 (double) and 2^22 (float), C81_sqrt_refuted gives a size for which the float version chooses blocks that do not fit into the workspace. Refuted further: a row vector is accepted as tau and read as a column; without scratch memory the blocked version returns 0 with a wrong result; an empty C is refused with EWORK. A tau longer than the columns of A, which armas_qrfactor takes, is refused with ESIZE (C81_qrmult_errors).",
 "C82": "Proved from the factorization to the solution, for all sizes, block sizes and workspaces, exact arithmetic over an ordered field with square roots: optimality against every other vector, uniqueness, length of the residual, minimum norm. Partial because the return value does not tell success: a tau of another length, a zero on the diagonal of R, or more columns than rows are not reported (C82_tau_refuted, C82_singular_refuted, C82_wide_refuted; the last writes outside B).",
 "C83": "C83_factor_build is proved in full: factor and form Q, all sizes, block sizes, any prior workspace contents. For reflectors from elsewhere proved when those with tau = 0 have the vector (1,0,0,...), as armas_qrfactor leaves them (C79); refuted otherwise: the triangular factor is not cleared between blocks (C83_stale_refuted). Not reported as errors: a tau shorter than the columns of A, for which a reflector is left out (C83_tau_refuted), and K larger than the columns, which writes outside A (C83_count_refuted); a matrix without columns is refused with EWORK.",
 "C84": "Proved for all sizes when the copies of the diagonal block of A and of the block of B beside it fit in their places, which the default configuration guarantees for every buffer (C84_default_config). Refuted for other configurations accepted by the library: MB > KB makes the copied columns overlap (C84_overlap_refuted), with ARMAS_RIGHT NB > MB lets the copy of B overwrite that of A (C84_right_refuted) and MB > NB writes behind the scratch buffer (C84_overrun_refuted). Without LOWER and UPPER diagonal and other blocks are read from different triangles (C84_no_triangle_refuted). Flags ABSA/ABSB (not documented for this function) are excluded.",
 "C85": "Proved for all sizes with inner dimension at least 1, on the unblocked path and, when env->lb >= 2, on the recursive one. Refuted otherwise: with lb <= 1 the recursion does not end for any size (C85_small_limit_refuted), with inner dimension 0 C is not scaled by beta (C85_empty_refuted). A size error returns -1, not -ARMAS_ESIZE.",
 "C86": "Proved: dsymm, cblas_dsymm by rows, cblas_dgemm by columns, dgemm without transposition or with square operands, dsyrk, dsyr2k with ldb = lda. Refuted: dgemm with 'T' for an operand that is not square does nothing; 'C' is taken as 'N'; cblas_dgemm by rows does nothing unless m = n = k and then stores the transposed result; cblas_dsymm by columns does nothing unless m = n; dsyr2k reads B with lda. Not modelled: cblas_syrk and cblas_syr2k, which no header names and which do not compile; dsyr2k is exported as dsyrk2_.",
 "C87": "Proved: dtrmm and dtrsm and their cblas forms by columns. Refuted: by rows nothing is done unless m = n and then op(A) is transposed; 'C' is taken as 'N'. dtrsm with alpha <> 1 as far as C65.",
 "C88": "Proved for n >= 0, nonzero increments of any sign (two vectors) and positive increments (one vector). Refuted: daxpy, dswap, ddot multiply the increments as int, which overflows for increments of 65536; dscal, dasum, dnrm2 and idamax with a negative increment use elements below the vector; idamax counts from 0; drotg does not store r. Not expressed: dscal_ takes its arguments as (n, x, incx, alpha) instead of (n, alpha, x, incx), a mismatch of C types the model has no notion of. Not compiled and not modelled: the cblas_ names, xROTM, xROTMG.",
 "C89": "Proved for ranges within the matrix and sequences with start + nrot below the number of rows (columns). Refuted: armas_gvleft and armas_gvright use elements outside of the matrix if the range is too long (the clipped end is computed but not used); armas_gvupdate with the documented maximum of rotations uses row A->rows; a backward update returns 0, not the number of rotations. The AVX version of gvrotg is not modelled.",
 "C90": "Proved for square A, a vector of A's size, either triangle. Refuted: with flags that name no triangle armas_cholesky factors the upper and armas_cholupdate updates the lower triangle; a vector of another size is not reported and elements outside of it are used.",
 "C91": "Partial because the full claim is false of the code. Refuted: with ARMAS_UNIT the products use the stored diagonal, so the result is wrong unless that diagonal holds ones; with blocks not smaller than the limit of the recursive solver the solve with alpha = -1 is wrong (C65_recursive_alpha_refuted). Proved for everything else, with ARMAS_UNIT when the stored diagonal holds ones.",
 "C92": "Proved for the unblocked algorithm, and for the blocked one when the solver is naive or the triangles it solves stay below its limit: fewer than blas2min rows for the recursive solver, otherwise min(nb, rows) < blas2min, which the defaults meet for every size. Outside that the claim is false of the code: the result is wrong (C92_recursive_refuted, through C65_recursive_alpha_refuted). A zero on the diagonal of U is not covered.",
 "C93": "Proved for the unblocked algorithm and, when spd_blocks holds, for the blocked one. spd_blocks asks that the block sizes of the symmetric product fit in the scratch buffer (C84; true of the default configuration, C84_default_config) and, for an upper triangle, that the update of the diagonal block is right (upper_ok, see C67). A zero on the diagonal of the factor is reported as ARMAS_ESINGULAR under the same conditions (C93_singular_partial). In other configurations the claim can be false: with kb smaller than nb the blocked version returns 0 and a matrix that is not the inverse (C93_blocks_refuted). Whether upper_ok is needed is open: no wrong result was found for 5 by 5 factors without it."
}