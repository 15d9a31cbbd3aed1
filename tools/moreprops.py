# Properties added as the model grew (C56 and later).
p("One norm and infinity norm of a matrix",
  "armas_mnorm returns the largest column sum (ARMAS_NORM_ONE) or the largest row sum (ARMAS_NORM_INF) of absolute values of a matrix and does not modify memory.",
  "every shape, leading dimension, content and summation threshold, over any ordered field",
  "a maximum over sums is a claim about all columns or rows and all contents",
  ["src/blas/mnorm.c: armas_mnorm, matrix_norm_one, matrix_norm_inf"])
p("Saving and restoring the workspace position gives back exactly what was reserved in between",
  "After saving the position of a workspace, making any sequence of reservations and restoring the position, the workspace offers exactly the bytes it offered before, and the same reservations made again return the same regions.",
  "every workspace, every position and every sequence of reservations",
  "the claim ranges over all sequences of reservations of all sizes",
  ["src/include/armas.h: armas_wpos, armas_wsetpos, armas_wreserve, armas_wreserve_bytes"])
p("Sorting on absolute values",
  "armas_abs_sort_vec leaves the vector ordered by absolute value, the multiset of the elements is kept, and nothing else in memory changes.",
  "every vector, row or column of a matrix, of every length and content over an ordered ring, both directions",
  "the claim is about all contents and all lengths",
  ["src/lapack/sort.c: armas_abs_sort_vec"])
p("Copying a sparse matrix",
  "armassp_mkcopy returns a matrix of the same format and dimensions that stores exactly the elements of the original, in the same order.",
  "every sparse matrix in every format",
  "the claim is about all structures and contents",
  ["src/sparse/copy.c: armassp_mkcopy, armassp_copy_to"])
p("Expanding a sparse matrix to a dense one",
  "armassp_todense makes element (i, j) of the dense matrix equal to the value of the sparse matrix at (i, j) for every position, and nothing outside of the dense matrix changes; a dense matrix of another size is refused unchanged.",
  "every sparse matrix in every format, every dense view of the same size and every previous content",
  "the claim is about all structures, strides and contents",
  ["src/sparse/dense.c: armassp_todense"])
p("Callers that sleep on the task queue are woken",
  "A reader that sleeps on an empty task queue is woken when an item is there, a writer that sleeps on a full one is woken when a place is free, and the lock of the queue is never held for ever.",
  "every capacity, any number of threads, every interleaving, executions without spurious wake-ups included",
  "a lost wake-up needs a particular interleaving and a platform without spurious wake-ups; the claim is about all of them",
  ["src/workers/queue.h: taskq_enqueue, taskq_dequeue, taskq_enqueue_nowait, taskq_dequeue_nowait, taskq_read, taskq_write"])
p("Tasks are not used after the parallel product released them",
  "When a parallel product has returned, no worker holds, will read or will execute one of its tasks, and the check made before their release succeeds.",
  "every number of workers and tasks, every capacity, one or two queues for each task, every interleaving",
  "a use after release needs a particular interleaving of a slow worker and the caller",
  ["src/workers/gemm.c: armas_ac_workers_mult", "src/workers/workers.h: worker_all_ready", "src/workers/workers.c: worker_thread, sched_workers_schedule"])
p("Strings survive writing and reading",
  "A string written as a JSON token is read back with the same characters.",
  "every string that fits the token buffer, every kind of stream",
  "escapes are handled character by character and every character has its own case",
  ["src/io/json_writer.c: armas_json_write_simple_token, armas_json_write_token", "src/io/json_reader.c: armas_json_read_token"])
p("Unknown members are refused",
  "Reading a matrix document with a member other than rows, cols, nnz, flags and data reports an error and gives no matrix.",
  "every document, every member name and every position of it",
  "the set of names that are not accepted is infinite",
  ["src/io/json_base.c: armas_json_read"])
p("Triangular solve with many right-hand sides",
  "armas_solve_trm with LEFT (RIGHT) overwrites B with the solution X of op(A)*X = alpha*B (X*op(A) = alpha*B) for the triangle the flags select and writes nothing else; operands that do not fit are refused unchanged.",
  "every size, stride, triangle, side, transposition, unit or stored diagonal without zeros, alpha, block size and threshold",
  "blocking, recursion and triangle combine with every size; a test checks a few sizes",
  ["src/blas/trsm.c: armas_solve_trm", "src/blas/trsm_blk.c: armas_solve_blocked", "src/blas/trsm_rec.c: armas_solve_recursive", "src/blas/trsm_unb.c: armas_solve_unb"])
p("A zero pivot is reported",
  "When armas_lufactor meets a zero pivot it reports it: the value returned is negative and conf->error is ARMAS_ESINGULAR; otherwise it returns 0 and conf->error is left alone.",
  "every matrix, with and without pivoting, blocked or not",
  "the position of the zero pivot relative to the blocks matters; all positions, all matrices",
  ["src/lapack/lu.c: armas_lufactor, unblk_lufactor, blk_lufactor, unblk_lufactor_nopiv, blk_lufactor_nopiv"])
p("Rank-k update of one triangle",
  "armas_update_trm replaces the selected triangle of C with beta*C + alpha*op(A)*op(B), armas_update_sym with beta*C + alpha*op(A)*op(A)^T; the other triangle, the operands and the rest of memory keep their contents and operands that do not fit are refused unchanged.",
  "every size, stride, triangle, transposition, alpha, beta, block size and recursion threshold, blocked, recursive and naive",
  "the division of the triangle into blocks interacts with every size; a test checks a few sizes and block sizes",
  ["src/blas/updtrmm.c: armas_update_trm", "src/blas/syrk.c: armas_update_sym"])
p("Product of a sparse symmetric matrix and a vector",
  "armassp_mvmult_sym computes beta*y + alpha*S*x where S is the symmetric matrix given by the selected triangle of the compressed structure, and writes nothing but y.",
  "every sorted square compressed matrix in both formats, both triangles, vectors and scalars",
  "every stored element is used twice, for its position and for the mirrored one, in an order that depends on the structure",
  ["src/sparse/symv.c: armassp_mvmult_sym"])
p("Matrix Market round trip of sparse matrices", "armassp_mmdump followed by armassp_mmload gives a coordinate list with the same shape and the same elements; a file in the standard format (indices from 1) is loaded as it says.",
  "every valid sparse matrix in any of the three formats; every list of elements", "index conventions of writer and reader must agree for every element",
  ["src/sparse/io.c: armassp_mmdump, armassp_mmload"])
p("Accuracy of the sum in extended precision",
  "armas_ext_sum gives alpha times the sum of the elements (or of their magnitudes with ARMAS_ABS) with an error of one rounding of the result plus a term of second order: at most u*|alpha*S| + O(n^2 u^2) |alpha| sum|x|; a non-vector is refused and the result left alone.",
  "every vector of floating-point numbers of any length and stride, float and double, any multiplier, any cancellation",
  "the error depends on all the values; tests with a few vectors cannot bound it for ill-conditioned ones",
  ["src/eblas/asum_ext.c: armas_ext_sum, ext_sum2s, ext_asum2s", "src/include/eft.h: twosum, twoprod"])
p("Accuracy of the inner product in extended precision",
  "armas_ext_adot gives alpha*(x.y) as if computed with twice the precision and then rounded: error at most u*|alpha*x.y| + O(n^2 u^2) |alpha| sum|x_k*y_k| plus an underflow term; operands that are not vectors of one length are refused and the result left alone.",
  "every pair of vectors of floating-point numbers, any length, strides and cancellation; float and double, with and without fused operations",
  "the error depends on all the values; tests with a few vectors cannot bound it for ill-conditioned ones",
  ["src/eblas/dot_ext.c: armas_ext_adot", "src/include/eft.h: twosum, twoprod, fastsum, __FACT32, __FACT64"])
p("Accuracy of the vector update in extended precision",
  "armas_ext_axpby replaces every element of y with alpha*x + beta*y with an error of one rounding plus terms of second order and underflow, even if the two products cancel; nothing else is written; operands that are not vectors of one length are refused unchanged.",
  "every pair of disjoint vectors of floating-point numbers and every alpha, beta, float and double, with and without fused operations",
  "the error depends on the values; cancellation occurs for pairs of values a test does not hit",
  ["src/eblas/axpy_ext.c: armas_ext_axpby, armas_ext_axpy_unsafe, armas_ext_axpby_unsafe"])
p("Rounding error of the inner product",
  "In floating-point arithmetic armas_dot and armas_adot return a result with the error of n (n+2) roundings of every term: |r - x.y| <= ((1+u)^n - 1) sum|x_k*y_k| plus an underflow term, whatever strategy is used.",
  "every pair of vectors of floating-point numbers, any precision, every threshold of the recursion and every option",
  "the order of the additions depends on length, threshold and options and the error on all the values",
  ["src/blas/dot.c: armas_dot, armas_adot, vec_dot, vec_dot_recursive"])
p("Rounding error of the sum of magnitudes",
  "In floating-point arithmetic armas_asum returns the sum of the magnitudes with relative error (1+u)^(n-1) - 1, and with compensated summation (ARMAS_OKAHAN) with a relative error of a few u that does not grow with n to first order.",
  "every vector of floating-point numbers, any precision, every threshold and option",
  "the order of the additions depends on length, threshold and options and the error on all the values",
  ["src/blas/asum.c: armas_asum, vec_asum, vec_asum_kahan, vec_asum_recursive"])
p("Householder reflector with unit vector", "armas_house with ARMAS_UNIT leaves tau and v such that H = I - tau*(1;v)*(1;v)^T is orthogonal and its own inverse and maps the vector to (beta;0), with beta^2 the squared length of the vector, beta >= 0 with ARMAS_NONNEG and (-beta;0) with ARMAS_HHNEGATIVE; nothing else is written.",
  "every vector of any length and stride, every flag, however small the elements (the rescaling loop included)",
  "exactness of the reflection depends on all elements, the sign of the first one and the rescaling branch",
  ["src/lapack/house.c: armas_house, internal_householder"])
p("Householder reflector without scaling", "armas_house without ARMAS_UNIT leaves v and beta such that H = I - 2*v*v^T is orthogonal and maps the vector to (beta;0), beta >= 0 with ARMAS_NONNEG.",
  "every vector of any length and stride, every flag",
  "the case of a vector that already is a multiple of the first unit vector is easily missed",
  ["src/lapack/house.c: armas_house, hhcompute_unscaled"])
p("Applying a Householder reflector", "armas_houseapply2x1 and armas_houseapply replace A with H*A (ARMAS_LEFT) or A*H (ARMAS_RIGHT), H = I - tau*(1;v)*(1;v)^T, or I - 2*v*v^T for a null tau; only A and the workspace are written; a vector v of the wrong length is refused.",
  "every matrix of any shape, every reflector, both sides, vectors and matrices",
  "tests use a few shapes, mostly square; the claim is for all shapes and values",
  ["src/lapack/house.c: armas_houseapply, armas_houseapply2x1, armas_apply_householder2x1, armas_apply_householder1x1"])
p("Product of a triangular matrix and a matrix", "armas_mult_trm replaces B with alpha*op(A)*B (ARMAS_LEFT) or alpha*B*op(A) (ARMAS_RIGHT) for a triangular A (UPPER or LOWER, transposed or not, unit diagonal or not); the other triangle of A does not count; only B is written; operands that do not fit are refused unchanged.",
  "every shape, stride, alpha and flag combination, every block size and recursion threshold, all three strategies (unblocked, recursive, blocked)",
  "the blocked and recursive versions overwrite B in an order that depends on side, triangle and transposition; tests take a few sizes",
  ["src/blas/trmm.c: armas_mult_trm", "src/blas/trmm_blk.c: armas_trmm_blk", "src/blas/trmm_rec.c: armas_trmm_recursive", "src/blas/trmm_unb.c: armas_trmm_unb"])
p("QR factorization", "armas_qrfactor and armas_qrfactor_w replace an M-by-N matrix A, M >= N, by the upper triangle R and the vectors of N elementary reflectors, with the factors in tau, such that A = H(0)*H(1)*...*H(N-1)*R exactly in exact arithmetic, each H(k) orthogonal and symmetric, and A^T*A = R^T*R; whatever workspace of at least N elements is given, only A, the first N elements of tau and the workspace (and scratch memory) are written; with the option for non-negative diagonals R has none below zero; arguments that do not fit are reported and nothing is written.",
  "every M >= N >= 1, strides, block sizes, workspace sizes and positions, matrix contents over any ordered field with square roots",
  "tests factor a few random matrices and look at the norm of A - QR; an error for another combination of size, block size and workspace, or a zero column, does not show",
  ["src/lapack/qr.c: armas_qrfactor, armas_qrfactor_w, blk_qrfactor, armas_unblk_qrfactor, armas_update_qr_left", "src/lapack/house.c: armas_compute_householder", "src/include/armas.h: ARMAS_ONONNEG"])
p("Block reflector of a QR factorization", "armas_qrreflector stores into T the upper triangular N-by-N matrix with H(0)*...*H(N-1) = I - Y*T*Y^T, Y the unit lower trapezoidal matrix of the reflectors stored in A; nothing else is written; a T that is too small is reported.",
  "every QR-factored matrix with M >= N, every T at least N-by-N with any contents",
  "tests use T only as the routines of the library do, cleared beforehand, and check the product of the update",
  ["src/lapack/qr.c: armas_qrreflector, armas_unblk_qr_reflector"])
p("Multiplication by the Q of a QR factorization", "armas_qrmult and armas_qrmult_w replace C by Q*C, Q^T*C, C*Q or C*Q^T as flags say, Q being the product of the reflectors that armas_qrfactor left in A and tau; A and tau are not changed, nothing but C and the workspace (and scratch memory) is written, whatever workspace of at least one row or column of C is given; Q is orthogonal, and Q^T applied to the matrix that was factored gives R with zeros below; arguments that do not fit are reported and nothing is written.",
  "every C and factored A of fitting sizes, both sides, transposed or not, block sizes, workspace sizes and positions, contents over any field (ordered with square roots for the factorization)",
  "tests multiply a few random matrices for two block sizes; another workspace size selects another block size, and the four loops differ in direction and partition",
  ["src/lapack/qrmult.c: armas_qrmult, armas_qrmult_w, blk_qrmult_left, blk_qrmult_right, unblk_qrmult_left, unblk_qrmult_right", "src/lapack/qr.c: armas_update_qr_left, armas_update_qr_right, armas_qrfactor"])
p("Least squares and minimum norm solutions", "armas_qrfactor of A followed by armas_qrsolve leaves in the first rows of every column b of B the x with the smallest |A*x-b|, which is unique, and in the other rows a vector as long as the residual; with ARMAS_TRANS every column of B becomes the shortest x with A^T*x = b, b being its first rows; A must have linearly independent columns; A and tau are not changed by the second call, nothing but B and the workspace (and scratch memory) is written; arguments that do not fit are reported and nothing is written.",
  "every tall or square A with independent columns, every B with as many rows, transposed or not, block sizes, workspaces, contents over any ordered field with square roots",
  "that no other x is better is a claim about all vectors; tests solve systems with a known solution, where the residual is zero",
  ["src/lapack/qrsolve.c: armas_qrsolve, armas_qrsolve_w", "src/lapack/qrmult.c: armas_qrmult_w", "src/lapack/qr.c: armas_qrfactor", "src/blas/trsm.c: armas_solve_trm"])
p("Forming Q", "armas_qrbuild replaces A by the first columns of the product H_0*H_1*...*H_{K-1} of the reflectors stored in it and tau; after armas_qrfactor and with K the number of columns, the columns of the result are orthonormal and, times the R of the factorization, give the matrix that was factored; nothing but A and the workspace (and scratch memory) is written; arguments that do not fit are reported and nothing is written.",
  "every tall or square A, every K from 0 to the columns of A, block sizes, workspaces and what they hold before, contents over any field (after armas_qrfactor: any ordered field with square roots)",
  "orthonormality and the product are equations for all matrices; how stale workspace contents interact with zero coefficients does not show for random input",
  ["src/lapack/qrbld.c: armas_qrbuild, armas_qrbuild_w, blk_qrbuild, unblk_qrbuild", "src/lapack/qr.c: armas_qrfactor, armas_unblk_qr_reflector, armas_update_qr_left"])
p("Symmetric matrix-matrix product", "armas_mult_sym computes C := beta*C + alpha*A*op(B), or with ARMAS_RIGHT beta*C + alpha*op(B)*A, where A is the symmetric matrix whose lower or upper triangle is stored; the other triangle is neither used nor accessed; nothing but C and scratch memory is written; sizes that do not fit and a missing scratch buffer are reported and nothing is written.",
  "all sizes, both sides, both triangles, transposed B or not, unit diagonal or not, alpha and beta over any commutative ring, scratch buffers and block configurations",
  "which elements are read and how the blocks meet at the diagonal is a statement about all sizes and block sizes; tests use the default configuration",
  ["src/blas/symm.c: armas_mult_sym, armas_mult_symm_left, armas_mult_symm_right, mult_symm_diag", "src/include/matcpy.h: colcpy_fill_low, colcpy_fill_up"])
p("Symmetric rank-2k update", "armas_update2_sym computes C := beta*C + alpha*(A*B^T + B*A^T), or with ARMAS_TRANS beta*C + alpha*(A^T*B + B^T*A), in the upper or lower triangle of C; the other triangle is neither read nor written and need not be accessible; nothing but C and scratch memory is written; sizes that do not fit and a missing scratch buffer are reported and nothing is written.",
  "all sizes, both triangles, transposed or not, alpha and beta over any commutative ring, unblocked and recursive paths, scratch buffers and block configurations",
  "how the recursion halves the triangle and where its pieces meet depends on the size and on the configuration; tests use one configuration and a few sizes",
  ["src/blas/syr2k.c: armas_update2_sym, update_syr2k_unb, update_syr2k_recursive, update_syr2k_trans_unb, update_syr2k_trans_recursive"])
p("BLAS names of the matrix products and symmetric updates", "A program linked against the BLAS compatibility names gets what the reference BLAS defines: xGEMM computes C := alpha*op(A)*op(B) + beta*C, xSYMM C := alpha*A*B + beta*C or alpha*B*A + beta*C, xSYRK and xSYR2K the rank-k and rank-2k updates of one triangle, for matrices given by address and leading dimension, stored by columns (Fortran names, CblasColMajor) or by rows (CblasRowMajor), for all option letters and enumerators; nothing else but scratch memory is written.",
  "all sizes and leading dimensions, all options, both storage orders, alpha and beta over any commutative ring",
  "the options, orders and shapes multiply to hundreds of cases and wrong sizes are not reported to the caller, so a missed case shows only as a C left as it was; the tests do not call these names",
  ["src/compat/gemm.c: blas_gemmf, cblas_gemm", "src/compat/symm.c: blas_symmf, cblas_symm", "src/compat/syrk.c: blas_syrkf", "src/compat/syr2k.c: blas_syr2kf", "src/include/float64/names_compat.h", "src/include/compat.h: CBLAS_ORDER"])
p("BLAS names of the triangular products and solvers", "xTRMM through the BLAS compatibility names computes B := alpha*op(A)*B or alpha*B*op(A), and xTRSM replaces B with the solution of op(A)*X = alpha*B or X*op(A) = alpha*B, with A upper or lower triangular, transposed or not, unit diagonal or not, on the left or right, stored by columns or by rows; nothing else but scratch memory is written.",
  "all sizes and leading dimensions, all options, both storage orders, over any commutative ring (product) or field (solver) with a nonzero diagonal",
  "the options and the two storage orders give 64 cases per function and wrong sizes are not reported to the caller; the tests do not call these names",
  ["src/compat/trmm.c: blas_trmmf, cblas_trmm", "src/compat/trsm.c: blas_trsmf, cblas_trsm", "src/include/float64/names_compat.h", "src/include/compat.h: CBLAS_ORDER"])
p("BLAS names of the vector operations", "A program linked against the Fortran BLAS compatibility names gets what the reference BLAS defines for xAXPY, xCOPY, xSWAP, xDOT, xROT, xROTG, xSCAL, xASUM, xNRM2 and IxAMAX: element k of a vector of n elements with increment inc is at k*inc, with a negative increment the vector is taken backwards from its end, the one-vector functions do nothing for increments that are not positive, the index of the largest element counts from 1; only the elements named by the arguments are read or written.",
  "all lengths, all nonzero increments of either sign, all disjoint vectors, over any commutative ring (ordered field with square roots for the norm)",
  "the signs and sizes of two increments select between two code paths and three layouts of each operand; the tests do not call these names",
  ["src/compat/axpy.c: blas_axpyf", "src/compat/copy.c: blas_copyf", "src/compat/swap.c: blas_swapf", "src/compat/dot.c: blas_dotf", "src/compat/rot.c: blas_rotf, blas_rotgf", "src/compat/scal.c: blas_scalf", "src/compat/asum.c: blas_asumf", "src/compat/nrm2.c: blas_nrm2f", "src/compat/iamax.c: blas_iamaxf"])
p("Givens rotations", "Computing a rotation for (a, b) gives c, s, r with c*c + s*s = 1 that rotate (a, b) to (r, 0), r positive if a is; rotating two vectors, two rows or two columns of a matrix replaces them with c*x + s*y and c*y - s*x and changes nothing else; a sequence of rotations of neighbouring rows or columns is applied in forward or backward order and the number of rotations applied is returned; no element outside of the matrix is used.",
  "all numbers of an ordered field with square roots, all matrices, views, index ranges and sequences of rotations",
  "zero, equal and opposite operands and the order of a sequence of rotations matter, and going past the edge of a matrix shows only in the neighbouring memory",
  ["src/lapack/rotate.c: armas_gvcompute, armas_gvrotate", "src/lapack/gvrot.h: gvrotg", "src/lapack/givens.c: armas_gvleft, armas_gvright, armas_gvupdate, armas_gvrot_vec"])
p("Rank-1 update of a Cholesky factor", "Given the lower or upper triangular factor of a symmetric matrix S with positive diagonal and a vector x, the update leaves in the same triangle the factor, again with positive diagonal, of S + x*x^T: the one and only factor that factoring S + x*x^T anew would give. The other triangle and all memory besides the matrix and the vector, which is overwritten, stay as they were.",
  "all sizes, both triangles, column and row vectors, all views, over any ordered field with square roots",
  "each step rotates what the previous step left in the vector; tests compare norms of a few random matrices",
  ["src/lapack/cholupd.c: armas_cholupdate, unblk_cholupdate_lower, unblk_cholupdate_upper"])
p("Inverse of a triangular matrix", "Computing the inverse of an upper or lower triangular matrix, blocked or unblocked, with a diagonal without zeros, returns 0 and leaves in the same triangle the matrix whose product with the original, in either order, is the identity. A zero anywhere on the diagonal is reported as singular, a matrix that is not square as a size error. The other triangle and all memory besides the matrix and the scratch buffer stay as they were.",
  "all sizes, both triangles, all block sizes, all configurations of the kernels, all views, over any field",
  "each step uses columns that earlier steps overwrote with parts of the inverse; block size decides the order; tests run a few sizes and compare norms",
  ["src/lapack/invtrm.c: armas_inverse_trm, blk_inverse_upper, blk_inverse_lower, unblk_inverse_upper, unblk_inverse_lower"])
p("Inverse of a general matrix from its LU factors", "Inverting a matrix from the factors and pivots that LU factorization left returns 0, keeps the error code and leaves the matrix whose product with the original (unfactored) matrix, in either order, is the identity, whatever rows were interchanged; without pivots it is the inverse of the product of the factors. Only the matrix, the workspace and the scratch buffer change. A matrix that is not square, a pivot vector of another length, too little workspace, a null matrix and a failed allocation are reported and nothing is written.",
  "all sizes, all pivot vectors, all workspaces, all block sizes, all configurations of the kernels, all views, over any field",
  "the result is built from the right in the place of both factors, and needs the interchanges undone in the columns in reverse order; small or symmetric test matrices and matrices without interchanges hide order mistakes",
  ["src/lapack/inv.c: armas_luinverse, armas_luinverse_w, unblk_inverse_fused, blk_inverse_fused"])
p("Inverse of a positive definite matrix from its Cholesky factor", "Inverting a symmetric matrix from the Cholesky factor in its lower or upper triangle returns 0, keeps the error code and leaves in the same triangle the matrix whose product with the original, in either order, is the identity. The other triangle is not changed; only the matrix, the workspace and the scratch buffer are written. A matrix that is not square, too little workspace, a null matrix and a failed allocation are reported and nothing is written. A factor with a zero on its diagonal is reported as singular.",
  "all sizes, both triangles, all workspaces, all block sizes, all configurations of the kernels, all views, over any field; factors of positive definite matrices over any ordered field with square roots",
  "the inverse overwrites the factor it is computed from, starting at the last row, and is symmetric while only one triangle is stored; a test compares a few matrices within a tolerance",
  ["src/lapack/invspd.c: armas_cholinverse, armas_cholinverse_w, unblk_invpsd_lower, unblk_invpsd_upper, blk_invpsd_lower, blk_invpsd_upper"])
