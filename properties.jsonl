{"id": "C01", "title": "Element access through a matrix view is exact", "statement": "For a view whose leading dimension is at least its row count, distinct (row, column) pairs of the view name distinct memory cells; armas_set followed by armas_get at the same position returns the value written, every other element of the view and every cell outside the view keeps its value, and a negative row or column index -k names the k-th element from the end.", "quantifier": "every view shape, leading dimension, index pair (positive and negative), element type and memory content", "why_tests_cant": "aliasing between two index pairs depends on the combination of rows, step and both indices; a test touches a handful of shapes", "anchors": ["src/include/matrix.h: armas_get, armas_set, armas_get_unsafe, armas_set_unsafe, armas_index"]}
{"id": "C02", "title": "Sub-views alias exactly the parent elements they name", "statement": "Row, column, diagonal, submatrix and subvector views share storage with their parent: element (i, j) of the view is the parent element at the documented position, the view never reaches outside the parent, and a view of a view is the view of the composed offsets.", "quantifier": "every parent shape and every offset/extent inside it", "why_tests_cant": "every combination of offset, extent, stride and diagonal number would have to be enumerated", "anchors": ["src/include/matrix.h: armas_submatrix, armas_submatrix_ext, armas_submatrix_unsafe, armas_row, armas_column, armas_diag, armas_subvector"]}
{"id": "C03", "title": "Linear element access enumerates a matrix in column-major order", "statement": "armas_get_at / armas_set_at with linear index k reach row k mod rows, column k div rows; the indices 0..size-1 (and the negative aliases) enumerate every element of the matrix exactly once, for every leading dimension.", "quantifier": "every shape, leading dimension and linear index", "why_tests_cant": "index arithmetic with division depends on all of rows, step and index", "anchors": ["src/include/matrix.h: armas_real_index, armas_set_at, armas_get_at, armas_set_at_unsafe, armas_get_at_unsafe"]}
{"id": "C04", "title": "Block partitioning of a matrix is an exact tiling and block traversals terminate", "statement": "Partitioning a matrix into 2x2 blocks and repartitioning to 3x3 blocks yields blocks that tile the matrix (every element lies in exactly one block), and the partition / repartition / continue loop used by every blocked algorithm advances by the block size each turn, visits every diagonal position exactly once and stops, in both directions.", "quantifier": "every matrix shape, every block size, every number of completed iterations, both traversal directions", "why_tests_cant": "needs every iteration of the traversal of every shape and block size", "anchors": ["src/include/partition.h: mat_partition_2x2, mat_repartition_2x2to3x3, mat_continue_3x3to2x2"]}
{"id": "C05", "title": "Row/column/vector partitioning is an exact tiling, and merging undoes it", "statement": "The 2x1, 1x2 and vector partition, repartition and continue operations split a matrix or vector into adjacent, disjoint, covering parts for any requested block size, and merging two adjacent blocks gives back the block they were split from.", "quantifier": "every shape, block size, direction and traversal position", "why_tests_cant": "same as above", "anchors": ["src/include/partition.h: mat_partition_2x1, mat_repartition_2x1to3x1, mat_continue_3x1to2x1, mat_partition_1x2, mat_repartition_1x2to1x3, mat_continue_1x3to1x2, mat_merge2x1, mat_merge1x2, vec_partition_2x1, vec_repartition_2x1to3x1, vec_continue_3x1to2x1"]}
{"id": "C06", "title": "Matrix copy", "statement": "armas_mcopy copies every element of the source to the same position of the destination when shapes agree, touches nothing else, never accesses memory outside the two matrices, and reports an error without touching memory when the shapes do not agree.", "quantifier": "every shape, leading dimension, memory content and element type", "why_tests_cant": "the copy loops are unrolled by four in both directions with separate remainders; every residue of rows and columns modulo four matters", "anchors": ["src/blas/mcopy.c: armas_mcopy", "src/include/matcpy.h: CP, blk_copy"]}
{"id": "C07", "title": "Transposed copy", "statement": "armas_mcopy with the transpose flag stores source element (i, j) at destination (j, i) for all elements and touches nothing else; copying transposed twice gives back the original matrix.", "quantifier": "every shape, leading dimension, memory content and element type", "why_tests_cant": "same unrolling argument as for plain copy", "anchors": ["src/blas/mcopy.c: armas_mcopy", "src/include/matcpy.h: CPTRANS"]}
{"id": "C08", "title": "Vector swap and copy", "statement": "armas_swap exchanges two vectors of equal length element by element (row and column vectors in any mixture), leaves all other memory alone and is its own inverse; armas_copy makes the target equal to the source.", "quantifier": "every length, stride, orientation and content", "why_tests_cant": "unrolled loops with remainders, two independent strides", "anchors": ["src/blas/swap.c: armas_swap", "src/blas/mcopy.c: armas_copy"]}
{"id": "C09", "title": "Scaled vector addition", "statement": "armas_axpy and armas_axpby store beta*y[i] + alpha*x[i] in y[i] for every index, do not change x and touch nothing else, whatever the orientation and stride of the two vectors.", "quantifier": "every length, stride, orientation, content and pair of scalars, over any commutative ring", "why_tests_cant": "unrolled loops with remainders, special cases for the scalars", "anchors": ["src/blas/axpy.c: armas_axpy, armas_axpby"]}
{"id": "C10", "title": "Scaling touches exactly the selected elements", "statement": "armas_scale and armas_mscale multiply exactly the elements selected by the flags (all, upper or lower triangle, with or without the diagonal) by the constant and change no other memory cell.", "quantifier": "every shape, leading dimension, flag combination and content", "why_tests_cant": "selection depends on the shape and on every flag combination", "anchors": ["src/blas/mscale.c: armas_scale, armas_mscale, vec_scale", "src/include/matcpy.h: blk_scale"]}
{"id": "C11", "title": "Adding a constant touches exactly the selected elements", "statement": "armas_madd adds the constant to exactly the elements selected by the flags and changes no other memory cell.", "quantifier": "every shape, leading dimension, flag combination and content", "why_tests_cant": "selection depends on the shape and on every flag combination", "anchors": ["src/blas/madd.c: armas_madd"]}
{"id": "C12", "title": "Matrix sum", "statement": "armas_mplus computes alpha*A + beta*op(B) in exactly the elements selected by the flags, where op is transposition when requested, and changes no other memory cell.", "quantifier": "every shape, leading dimension, flag combination and content", "why_tests_cant": "the triangular loops work on blocks of four columns with a triangular head or tail", "anchors": ["src/blas/mplus.c: armas_mplus, madd, madd_lower, madd_upper"]}
{"id": "C13", "title": "Element generators and element-wise maps", "statement": "armas_set_values, armas_make_trm, armas_apply and armas_apply2 write exactly the documented part of the matrix (all, triangle, symmetric, with or without diagonal) with the documented values and never write outside the matrix.", "quantifier": "every shape including wide and tall matrices, leading dimension, flags and functions", "why_tests_cant": "the boundary of a trapezoid against the matrix edge depends on the shape", "anchors": ["src/blas/mset.c: armas_set_values, armas_make_trm", "src/blas/mapply.c: armas_apply, armas_apply2, armas_iterate"]}
{"id": "C14", "title": "The inner product does not depend on the summation strategy", "statement": "armas_dot and armas_adot return the sum of x[i]*y[i] over all elements, whether the straightforward or the recursive strategy is selected and for every recursion threshold; they do not modify memory.", "quantifier": "every length, stride, orientation, threshold and content, over any commutative ring", "why_tests_cant": "four partial accumulators, remainder code and recursion over halves and quarters", "anchors": ["src/blas/dot.c: armas_dot, armas_adot, vec_dot, vec_dot_recursive"]}
{"id": "C15", "title": "Sum of absolute values does not depend on the summation strategy", "statement": "armas_asum returns the sum of |x[i]| over all elements for every strategy (straightforward, compensated, recursive) and recursion threshold.", "quantifier": "every length, stride, orientation, threshold and content, exact arithmetic", "why_tests_cant": "same as the inner product", "anchors": ["src/blas/asum.c: armas_asum"]}
{"id": "C16", "title": "Index of the element of largest magnitude", "statement": "armas_iamax returns the smallest index whose element has the largest absolute value, and armas_amax that value, for every vector.", "quantifier": "every length, stride, orientation and content over a total order", "why_tests_cant": "unrolled comparison loop; ties and position of the maximum matter", "anchors": ["src/blas/iamax.c: armas_iamax, armas_amax"]}
{"id": "C17", "title": "Index of the element of smallest magnitude", "statement": "armas_iamin returns the smallest index whose element has the smallest absolute value, for row and column vectors alike.", "quantifier": "every length, stride, orientation and content", "why_tests_cant": "ties, strides and position of the minimum matter", "anchors": ["src/blas/iamax.c: armas_iamin"]}
{"id": "C18", "title": "Euclidean norm by scaled summation", "statement": "armas_nrm2 (and the Frobenius norm) equals the square root of the sum of squares although it is computed with running rescaling, for every vector including those with zeros; no division by zero occurs.", "quantifier": "every length, orientation and content, over the reals", "why_tests_cant": "the rescaling path depends on the order of magnitudes in the vector", "anchors": ["src/blas/nrm2.c: armas_nrm2", "src/blas/mnorm.c: matrix_norm_frb"]}
{"id": "C19", "title": "General matrix-vector product", "statement": "armas_mvmult stores beta*y + alpha*op(A)*x in y for both strategies (unblocked and recursive) and every recursion threshold for which it terminates, changes nothing but y and never leaves the operands.", "quantifier": "every shape, leading dimension, stride, orientation, flags, threshold and content over a commutative ring", "why_tests_cant": "recursion by halves over an unrolled kernel with remainders", "anchors": ["src/blas/gemv.c: armas_mvmult, gemv_unb, gemv_recursive", "src/include/nosimd/mvec.h"]}
{"id": "C20", "title": "Rank-one update", "statement": "armas_mvupdate stores beta*A + alpha*x*y^T in A for both strategies and changes nothing else.", "quantifier": "every shape, leading dimension, stride, orientation, threshold and content over a commutative ring", "why_tests_cant": "recursion by halves over an unrolled kernel with remainders", "anchors": ["src/blas/ger.c: armas_mvupdate"]}
{"id": "C21", "title": "Symmetric matrix-vector product and symmetric updates read and write only the stored triangle", "statement": "armas_mvmult_sym computes beta*y + alpha*A*x where A is the symmetric matrix defined by the stored triangle; the other triangle is neither read nor written; armas_mvupdate_sym, armas_mvupdate2_sym and armas_mvupdate_trm update exactly the stored triangle.", "quantifier": "every order, leading dimension, stride, triangle, threshold and content", "why_tests_cant": "the unreferenced triangle may hold anything", "anchors": ["src/blas/symv.c: armas_mvmult_sym", "src/blas/syr2.c: armas_mvupdate2_sym", "src/blas/updtrmv.c: armas_mvupdate_trm"]}
{"id": "C22", "title": "Triangular matrix-vector product", "statement": "armas_mvmult_trm replaces x by alpha*op(A)*x, A being the triangular matrix selected by the flags with stored or unit diagonal, for every strategy and threshold; only x changes.", "quantifier": "every order, leading dimension, stride, flag combination, threshold and content", "why_tests_cant": "in-place update order matters for every element", "anchors": ["src/blas/trmv.c: armas_mvmult_trm"]}
{"id": "C23", "title": "Triangular solve", "statement": "armas_mvsolve_trm replaces b by the x with op(A)*x = alpha*b whenever the diagonal is invertible, for upper/lower, transposed, unit-diagonal and every strategy and threshold; only the vector changes.", "quantifier": "every order, leading dimension, stride, flag combination, threshold and content over a field", "why_tests_cant": "in-place substitution order matters for every element", "anchors": ["src/blas/trsv.c: armas_mvsolve_trm"]}
{"id": "C24", "title": "Blocked matrix product equals the definition", "statement": "armas_mult stores beta*C + alpha*op(A)*op(B) in C for every positive cache block configuration; A and B and all other memory except the scratch buffer are unchanged.", "quantifier": "every shape, leading dimension, flags, block sizes (including sizes that do not divide the dimensions) and content", "why_tests_cant": "three blocking loops times unrolled kernels times transposition cases", "anchors": ["src/blas/gemm.c: armas_mult", "src/blas/kernel.c: armas_mult_kernel, armas_mult_kernel_inner", "src/include/kernel.h", "src/include/nosimd/mult.h"]}
{"id": "C25", "title": "Work splitting covers the result exactly once", "statement": "The block boundaries used to split a matrix over threads are monotone, start at zero, end at the full extent and (except the last) are multiples of four, so that the tiles handed to the workers are pairwise disjoint and cover the result.", "quantifier": "every extent and every number of blocks", "why_tests_cant": "integer rounding for every pair of extent and block count", "anchors": ["src/include/accel.h: armas_ac_block_index", "src/workers/gemm.c", "src/threaded/gemm.c"]}
{"id": "C26", "title": "Parallel execution gives the sequential result under every schedule", "statement": "Executing the tile tasks of a parallel matrix operation in any order or interleaving of their reads and writes gives the same final memory as executing them one after the other.", "quantifier": "every schedule of the workers, every tiling, every matrix content", "why_tests_cant": "the number of interleavings is astronomically large", "anchors": ["src/workers/gemm.c", "src/workers/workers.h: worker_tiles", "src/threaded/gemm.c"]}
{"id": "C27", "title": "Row and column pivoting", "statement": "armas_pivot_rows / armas_pivot_cols apply the stored interchanges in the order given by the direction flag: the result is the original matrix with its rows (columns) permuted by the composition of the transpositions; applying forward and then backward restores the matrix.", "quantifier": "every matrix shape, pivot vector with valid indices, direction", "why_tests_cant": "the composition depends on the whole pivot vector", "anchors": ["src/base/pivot.c: armas_pivot_rows, armas_pivot_cols, armas_pivot"]}
{"id": "C28", "title": "Symmetric pivoting acts on the stored triangle only", "statement": "Symmetric pivoting of a matrix stored in one triangle gives the stored triangle of P*A*P^T and leaves the other triangle untouched.", "quantifier": "every order, leading dimension, pivot index and content", "why_tests_cant": "the swap is split into three segments around the pivot; every relative position matters", "anchors": ["src/base/pivot.c: armas_pivot, apply_pivot_lower, apply_pivot_upper"]}
{"id": "C29", "title": "Workspace allocation never overlaps and never leaves the buffer", "statement": "Any sequence of reserve, reset and position operations on a workspace buffer hands out regions that lie inside the buffer and, until a reset, are pairwise disjoint; a request that does not fit is refused and changes nothing.", "quantifier": "every buffer size and every sequence of operations", "why_tests_cant": "depends on the whole history of operations", "anchors": ["src/include/armas.h: armas_walloc, armas_wmake, armas_wreserve, armas_wreserve_bytes, armas_wreset, armas_wpos, armas_wsetpos, armas_wbytes"]}
{"id": "C30", "title": "Cache buffer splitting stays inside the buffer", "statement": "The block buffers carved out of the working cache memory are aligned, disjoint and lie inside the memory they are carved from, for every configuration accepted.", "quantifier": "every memory size, alignment of the base address, block size and element size", "why_tests_cant": "pointer alignment and rounding for every size", "anchors": ["src/base/cache.c: armas_cbuf_init, armas_cbuf_make, armas_cbuf_split2, armas_cbuf_split3, armas_cache_setup2, armas_cache_setup3"]}
{"id": "C31", "title": "The task queue is a bounded FIFO", "statement": "Any history of enqueue and dequeue operations on a task queue delivers exactly the enqueued tasks, once each and in order, never more than the capacity in flight; a writer finding the queue full and a reader finding it empty are told so.", "quantifier": "every capacity and every history of operations", "why_tests_cant": "wrap-around of the ring indices over unbounded histories", "anchors": ["src/workers/queue.h"]}
{"id": "C32", "title": "Every scheduled task runs exactly once", "statement": "With several workers and tasks possibly offered to two queues, every task is executed exactly once, under every interleaving of the workers.", "quantifier": "every number of workers and tasks, every schedule", "why_tests_cant": "the race between two workers claiming the same task has unboundedly many interleavings", "anchors": ["src/workers/workers.c", "src/workers/scheduler.h"]}
{"id": "C33", "title": "The lock gives mutual exclusion", "statement": "At most one thread holds the scheduler lock at any time, a release is only ever performed on a held lock and a blocked thread is woken after a release, under every interleaving of the atomic operations and futex calls.", "quantifier": "every number of threads and every schedule including spurious wake-ups", "why_tests_cant": "unboundedly many interleavings", "anchors": ["src/workers/sync.h"]}
{"id": "C34", "title": "Waiting for completion returns only when all tasks are done and is not missed", "statement": "The completion counter releases the waiting thread exactly when the last task has been accounted for; no wake-up is lost and the counter never goes negative.", "quantifier": "every number of tasks and workers, every schedule", "why_tests_cant": "unboundedly many interleavings", "anchors": ["src/workers/counter.h", "src/workers/sync.h", "src/workers/workers.c"]}
{"id": "C35", "title": "Building a sparse matrix by appending", "statement": "Appending elements to a coordinate-format matrix keeps every earlier element and adds the new one behind them, the element count equals the number of successful appends, the storage grows beyond the reserved count as needed, a failing append leaves the matrix unchanged, and positions outside the dimensions are refused.", "quantifier": "every sequence of append operations and every size", "why_tests_cant": "depends on the whole history", "anchors": ["src/sparse/util.c: armassp_append, armassp_resize, armassp_new, armassp_init", "src/include/sparse.h: armas_sparse_t"]}
{"id": "C36", "title": "Storage format conversion preserves the matrix", "statement": "Converting a sparse matrix from coordinate to compressed column or row format (or between the compressed formats) yields a structurally valid matrix that stores the same elements (a position stored several times stays so), so that the matrix has the same value at every position, with ascending indices in every line; converting to the format the matrix already has and converting a matrix without elements do the same.", "quantifier": "every sparse matrix, any order of its elements", "why_tests_cant": "counting-sort style index manipulation depends on the whole element list", "anchors": ["src/sparse/convert.c: armassp_convert_to, armassp_convert"]}
{"id": "C37", "title": "Sparse transposition", "statement": "Transposing a compressed sparse matrix yields a valid matrix whose element (i, j) is the original (j, i); transposing twice gives back the original matrix.", "quantifier": "every compressed sparse matrix", "why_tests_cant": "depends on the whole index structure", "anchors": ["src/sparse/convert.c: armassp_transpose_to, armassp_transpose"]}
{"id": "C38", "title": "Sorting a compressed sparse matrix", "statement": "armassp_sort puts the indices within every column (row) in ascending order and only permutes the (index, value) pairs of that column (row).", "quantifier": "every compressed sparse matrix", "why_tests_cant": "permutation property for every input", "anchors": ["src/sparse/sort.c: armassp_sort, simple_sort, compressed_sort"]}
{"id": "C39", "title": "Sparse matrix-vector product", "statement": "armassp_mvmult computes beta*y + alpha*op(A)*x where A is the matrix denoted by the compressed structure, and reports an error when the sizes do not fit.", "quantifier": "every compressed matrix including rectangular ones, vectors and scalars, both orientations", "why_tests_cant": "depends on the whole structure and on the shape", "anchors": ["src/sparse/gemv.c: armassp_mvmult"]}
{"id": "C40", "title": "Sparse triangular solve and multiply", "statement": "armassp_mvsolve_trm replaces b by the solution of op(A)*x = alpha*b and armassp_mvmult_trm by alpha*op(A)*b, for sorted triangular compressed matrices with a full diagonal.", "quantifier": "every such matrix, vector, scalar and flag combination", "why_tests_cant": "in-place substitution over an irregular structure", "anchors": ["src/sparse/trsv.c: armassp_mvsolve_trm", "src/sparse/trmv.c: armassp_mvmult_trm"]}
{"id": "C41", "title": "Sparse addition", "statement": "armassp_add / armassp_addto_w compute alpha*A + beta*B: the result is structurally valid and has the right element at every position.", "quantifier": "every pair of compressed matrices of equal kind and shape", "why_tests_cant": "accumulator reuse between rows and exact-fit storage", "anchors": ["src/sparse/add.c: armassp_addto_w, armassp_add", "src/sparse/accum.c"]}
{"id": "C42", "title": "Sparse product", "statement": "armassp_multto_w computes alpha*op(A)*op(B) into a structurally valid result.", "quantifier": "every pair of compatible compressed matrices, scalar and transposition flags", "why_tests_cant": "accumulator reuse between rows, scalar handling per variant", "anchors": ["src/sparse/mult.c: armassp_multto_w, armassp_mult", "src/sparse/accum.c"]}
{"id": "C43", "title": "Diagonal operations on sparse matrices", "statement": "armassp_add_diag adds mu to every stored diagonal element and changes no other element; armassp_mult_diag scales rows or columns by the given vector; armassp_hasdiag tells whether a diagonal is fully stored.", "quantifier": "every compressed matrix, sorted or with missing diagonal elements", "why_tests_cant": "behaviour at a missing diagonal depends on the neighbouring row", "anchors": ["src/sparse/diag.c: armassp_add_diag, armassp_mult_diag", "src/sparse/util.c: armassp_hasdiag, armassp_nz"]}
{"id": "C44", "title": "JSON tokens are read within the buffer and reading terminates", "statement": "Reading a token from any character stream terminates at or before the end of the stream and never writes outside the token buffer.", "quantifier": "every character sequence and every buffer length", "why_tests_cant": "the input is arbitrary", "anchors": ["src/io/json_reader.c: armas_json_read_token"]}
{"id": "C45", "title": "JSON matrix round trip", "statement": "A matrix written with armas_json_write is read back by armas_json_read with the same dimensions and the same elements, given that the number formatting used round-trips.", "quantifier": "every shape and content of finite elements", "why_tests_cant": "all shapes including empty and all texts of numbers", "anchors": ["src/io/json_base.c: armas_json_write, armas_json_read", "src/io/json_writer.c"]}
{"id": "C46", "title": "JSON coordinate input stays inside the matrix", "statement": "Reading a matrix given in coordinate form stores the listed elements inside the matrix and silently discards coordinates outside of it.", "quantifier": "every list of coordinates", "why_tests_cant": "the input is arbitrary", "anchors": ["src/io/json_base.c: armas_json_read_coorddata"]}
{"id": "C47", "title": "Matrix Market round trip", "statement": "armas_mmdump followed by armas_mmload gives back the matrix (its lower triangle in symmetric format), given that the number formatting used round-trips.", "quantifier": "every shape and content", "why_tests_cant": "the packed position arithmetic of the symmetric format depends on the order", "anchors": ["src/io/iomm.c: armas_mmload, armas_mmdump"]}
{"id": "C48", "title": "Character streams support push-back", "statement": "On a string or buffer stream, a character pushed back is the next one read, reading returns the bytes of the buffer in order and writing never exceeds the buffer.", "quantifier": "every buffer and every history of get, unget and put operations", "why_tests_cant": "depends on the history", "anchors": ["src/io/ios.c: wb_getc, wb_ungetc, wb_putc"]}
{"id": "C49", "title": "LU factorization", "statement": "After armas_lufactor the unit lower and upper triangles L and U satisfy P*A = L*U for the recorded interchanges, with and without pivoting, whenever no zero pivot is met.", "quantifier": "every square or rectangular matrix over a field, blocked or not", "why_tests_cant": "all matrices, all pivot orders", "anchors": ["src/lapack/lu.c: armas_lufactor, unblk_lufactor, unblk_lufactor_nopiv"]}
{"id": "C50", "title": "Solving with an LU factorization", "statement": "armas_lusolve returns the X with A*X = B, or A^T*X = B when the transpose flag is set, given the factorization of A.", "quantifier": "every factored matrix and right-hand side", "why_tests_cant": "order of the two triangular solves and of the interchanges matters for every input", "anchors": ["src/lapack/lu.c: armas_lusolve"]}
{"id": "C51", "title": "Cholesky factorization", "statement": "After armas_cholesky the stored triangle L satisfies L*L^T = A for every matrix on which the factorization succeeds; the other triangle is untouched; a non-positive pivot is reported.", "quantifier": "every symmetric matrix", "why_tests_cant": "all matrices", "anchors": ["src/lapack/chol.c: armas_cholesky, unblk_cholfactor_lower, unblk_cholfactor_upper"]}
{"id": "C52", "title": "Sorting a vector", "statement": "armas_sort_vec sorts the vector ascending or descending: the result is ordered and a permutation of the input.", "quantifier": "every vector over a total order", "why_tests_cant": "permutation and order for every input", "anchors": ["src/lapack/sort.c: armas_sort_vec"]}
{"id": "C53", "title": "Quicksort of a vector", "statement": "armas_qsort_vec terminates and sorts every vector, including vectors with repeated elements.", "quantifier": "every vector", "why_tests_cant": "termination of the partition loop depends on the values", "anchors": ["src/lapack/qsort.c: armas_qsort_vec"]}
{"id": "C54", "title": "Sorting eigenvalues keeps eigenvectors attached", "statement": "armas_sort_eigenvec orders the eigenvalue vector and applies the same permutation to the columns of U, the rows of V and the columns of C.", "quantifier": "every vector and companion matrices", "why_tests_cant": "pairing must hold for every permutation", "anchors": ["src/lapack/sort.c: armas_sort_eigenvec"]}
{"id": "C55", "title": "Size queries do not lie", "statement": "armas_size returns the number of elements for every pair of dimensions representable by the matrix type, and allocation sizes are computed without overflow.", "quantifier": "all pairs of 32-bit dimensions", "why_tests_cant": "overflow occurs only for very large dimensions", "anchors": ["src/include/matrix.h: armas_size", "src/base/matrix.c: armas_init", "src/include/armas.h: armas_wreserve"]}
{"id": "C56", "title": "One norm and infinity norm of a matrix", "statement": "armas_mnorm returns the largest column sum (ARMAS_NORM_ONE) or the largest row sum (ARMAS_NORM_INF) of absolute values of a matrix and does not modify memory.", "quantifier": "every shape, leading dimension, content and summation threshold, over any ordered field", "why_tests_cant": "a maximum over sums is a claim about all columns or rows and all contents", "anchors": ["src/blas/mnorm.c: armas_mnorm, matrix_norm_one, matrix_norm_inf"]}
{"id": "C57", "title": "Saving and restoring the workspace position gives back exactly what was reserved in between", "statement": "After saving the position of a workspace, making any sequence of reservations and restoring the position, the workspace offers exactly the bytes it offered before, and the same reservations made again return the same regions.", "quantifier": "every workspace, every position and every sequence of reservations", "why_tests_cant": "the claim ranges over all sequences of reservations of all sizes", "anchors": ["src/include/armas.h: armas_wpos, armas_wsetpos, armas_wreserve, armas_wreserve_bytes"]}
{"id": "C58", "title": "Sorting on absolute values", "statement": "armas_abs_sort_vec leaves the vector ordered by absolute value, the multiset of the elements is kept, and nothing else in memory changes.", "quantifier": "every vector, row or column of a matrix, of every length and content over an ordered ring, both directions", "why_tests_cant": "the claim is about all contents and all lengths", "anchors": ["src/lapack/sort.c: armas_abs_sort_vec"]}
{"id": "C59", "title": "Copying a sparse matrix", "statement": "armassp_mkcopy returns a matrix of the same format and dimensions that stores exactly the elements of the original, in the same order.", "quantifier": "every sparse matrix in every format", "why_tests_cant": "the claim is about all structures and contents", "anchors": ["src/sparse/copy.c: armassp_mkcopy, armassp_copy_to"]}
{"id": "C60", "title": "Expanding a sparse matrix to a dense one", "statement": "armassp_todense makes element (i, j) of the dense matrix equal to the value of the sparse matrix at (i, j) for every position, and nothing outside of the dense matrix changes; a dense matrix of another size is refused unchanged.", "quantifier": "every sparse matrix in every format, every dense view of the same size and every previous content", "why_tests_cant": "the claim is about all structures, strides and contents", "anchors": ["src/sparse/dense.c: armassp_todense"]}
{"id": "C61", "title": "Callers that sleep on the task queue are woken", "statement": "A reader that sleeps on an empty task queue is woken when an item is there, a writer that sleeps on a full one is woken when a place is free, and the lock of the queue is never held for ever.", "quantifier": "every capacity, any number of threads, every interleaving, executions without spurious wake-ups included", "why_tests_cant": "a lost wake-up needs a particular interleaving and a platform without spurious wake-ups; the claim is about all of them", "anchors": ["src/workers/queue.h: taskq_enqueue, taskq_dequeue, taskq_enqueue_nowait, taskq_dequeue_nowait, taskq_read, taskq_write"]}
{"id": "C62", "title": "Tasks are not used after the parallel product released them", "statement": "When a parallel product has returned, no worker holds, will read or will execute one of its tasks, and the check made before their release succeeds.", "quantifier": "every number of workers and tasks, every capacity, one or two queues for each task, every interleaving", "why_tests_cant": "a use after release needs a particular interleaving of a slow worker and the caller", "anchors": ["src/workers/gemm.c: armas_ac_workers_mult", "src/workers/workers.h: worker_all_ready", "src/workers/workers.c: worker_thread, sched_workers_schedule"]}
{"id": "C63", "title": "Strings survive writing and reading", "statement": "A string written as a JSON token is read back with the same characters.", "quantifier": "every string that fits the token buffer, every kind of stream", "why_tests_cant": "escapes are handled character by character and every character has its own case", "anchors": ["src/io/json_writer.c: armas_json_write_simple_token, armas_json_write_token", "src/io/json_reader.c: armas_json_read_token"]}
{"id": "C64", "title": "Unknown members are refused", "statement": "Reading a matrix document with a member other than rows, cols, nnz, flags and data reports an error and gives no matrix.", "quantifier": "every document, every member name and every position of it", "why_tests_cant": "the set of names that are not accepted is infinite", "anchors": ["src/io/json_base.c: armas_json_read"]}
{"id": "C65", "title": "Triangular solve with many right-hand sides", "statement": "armas_solve_trm with LEFT (RIGHT) overwrites B with the solution X of op(A)*X = alpha*B (X*op(A) = alpha*B) for the triangle the flags select and writes nothing else; operands that do not fit are refused unchanged.", "quantifier": "every size, stride, triangle, side, transposition, unit or stored diagonal without zeros, alpha, block size and threshold", "why_tests_cant": "blocking, recursion and triangle combine with every size; a test checks a few sizes", "anchors": ["src/blas/trsm.c: armas_solve_trm", "src/blas/trsm_blk.c: armas_solve_blocked", "src/blas/trsm_rec.c: armas_solve_recursive", "src/blas/trsm_unb.c: armas_solve_unb"]}
{"id": "C66", "title": "A zero pivot is reported", "statement": "When armas_lufactor meets a zero pivot it reports it: the value returned is negative and conf->error is ARMAS_ESINGULAR; otherwise it returns 0 and conf->error is left alone.", "quantifier": "every matrix, with and without pivoting, blocked or not", "why_tests_cant": "the position of the zero pivot relative to the blocks matters; all positions, all matrices", "anchors": ["src/lapack/lu.c: armas_lufactor, unblk_lufactor, blk_lufactor, unblk_lufactor_nopiv, blk_lufactor_nopiv"]}
{"id": "C67", "title": "Rank-k update of one triangle", "statement": "armas_update_trm replaces the selected triangle of C with beta*C + alpha*op(A)*op(B), armas_update_sym with beta*C + alpha*op(A)*op(A)^T; the other triangle, the operands and the rest of memory keep their contents and operands that do not fit are refused unchanged.", "quantifier": "every size, stride, triangle, transposition, alpha, beta, block size and recursion threshold, blocked, recursive and naive", "why_tests_cant": "the division of the triangle into blocks interacts with every size; a test checks a few sizes and block sizes", "anchors": ["src/blas/updtrmm.c: armas_update_trm", "src/blas/syrk.c: armas_update_sym"]}
{"id": "C68", "title": "Product of a sparse symmetric matrix and a vector", "statement": "armassp_mvmult_sym computes beta*y + alpha*S*x where S is the symmetric matrix given by the selected triangle of the compressed structure, and writes nothing but y.", "quantifier": "every sorted square compressed matrix in both formats, both triangles, vectors and scalars", "why_tests_cant": "every stored element is used twice, for its position and for the mirrored one, in an order that depends on the structure", "anchors": ["src/sparse/symv.c: armassp_mvmult_sym"]}
{"id": "C69", "title": "Matrix Market round trip of sparse matrices", "statement": "armassp_mmdump followed by armassp_mmload gives a coordinate list with the same shape and the same elements; a file in the standard format (indices from 1) is loaded as it says.", "quantifier": "every valid sparse matrix in any of the three formats; every list of elements", "why_tests_cant": "index conventions of writer and reader must agree for every element", "anchors": ["src/sparse/io.c: armassp_mmdump, armassp_mmload"]}
{"id": "C70", "title": "Accuracy of the sum in extended precision", "statement": "armas_ext_sum gives alpha times the sum of the elements (or of their magnitudes with ARMAS_ABS) with an error of one rounding of the result plus a term of second order: at most u*|alpha*S| + O(n^2 u^2) |alpha| sum|x|; a non-vector is refused and the result left alone.", "quantifier": "every vector of floating-point numbers of any length and stride, float and double, any multiplier, any cancellation", "why_tests_cant": "the error depends on all the values; tests with a few vectors cannot bound it for ill-conditioned ones", "anchors": ["src/eblas/asum_ext.c: armas_ext_sum, ext_sum2s, ext_asum2s", "src/include/eft.h: twosum, twoprod"]}
{"id": "C71", "title": "Accuracy of the inner product in extended precision", "statement": "armas_ext_adot gives alpha*(x.y) as if computed with twice the precision and then rounded: error at most u*|alpha*x.y| + O(n^2 u^2) |alpha| sum|x_k*y_k| plus an underflow term; operands that are not vectors of one length are refused and the result left alone.", "quantifier": "every pair of vectors of floating-point numbers, any length, strides and cancellation; float and double, with and without fused operations", "why_tests_cant": "the error depends on all the values; tests with a few vectors cannot bound it for ill-conditioned ones", "anchors": ["src/eblas/dot_ext.c: armas_ext_adot", "src/include/eft.h: twosum, twoprod, fastsum, __FACT32, __FACT64"]}
{"id": "C72", "title": "Accuracy of the vector update in extended precision", "statement": "armas_ext_axpby replaces every element of y with alpha*x + beta*y with an error of one rounding plus terms of second order and underflow, even if the two products cancel; nothing else is written; operands that are not vectors of one length are refused unchanged.", "quantifier": "every pair of disjoint vectors of floating-point numbers and every alpha, beta, float and double, with and without fused operations", "why_tests_cant": "the error depends on the values; cancellation occurs for pairs of values a test does not hit", "anchors": ["src/eblas/axpy_ext.c: armas_ext_axpby, armas_ext_axpy_unsafe, armas_ext_axpby_unsafe"]}
{"id": "C73", "title": "Rounding error of the inner product", "statement": "In floating-point arithmetic armas_dot and armas_adot return a result with the error of n (n+2) roundings of every term: |r - x.y| <= ((1+u)^n - 1) sum|x_k*y_k| plus an underflow term, whatever strategy is used.", "quantifier": "every pair of vectors of floating-point numbers, any precision, every threshold of the recursion and every option", "why_tests_cant": "the order of the additions depends on length, threshold and options and the error on all the values", "anchors": ["src/blas/dot.c: armas_dot, armas_adot, vec_dot, vec_dot_recursive"]}
{"id": "C74", "title": "Rounding error of the sum of magnitudes", "statement": "In floating-point arithmetic armas_asum returns the sum of the magnitudes with relative error (1+u)^(n-1) - 1, and with compensated summation (ARMAS_OKAHAN) with a relative error of a few u that does not grow with n to first order.", "quantifier": "every vector of floating-point numbers, any precision, every threshold and option", "why_tests_cant": "the order of the additions depends on length, threshold and options and the error on all the values", "anchors": ["src/blas/asum.c: armas_asum, vec_asum, vec_asum_kahan, vec_asum_recursive"]}
{"id": "C75", "title": "Householder reflector with unit vector", "statement": "armas_house with ARMAS_UNIT leaves tau and v such that H = I - tau*(1;v)*(1;v)^T is orthogonal and its own inverse and maps the vector to (beta;0), with beta^2 the squared length of the vector, beta >= 0 with ARMAS_NONNEG and (-beta;0) with ARMAS_HHNEGATIVE; nothing else is written.", "quantifier": "every vector of any length and stride, every flag, however small the elements (the rescaling loop included)", "why_tests_cant": "exactness of the reflection depends on all elements, the sign of the first one and the rescaling branch", "anchors": ["src/lapack/house.c: armas_house, internal_householder"]}
{"id": "C76", "title": "Householder reflector without scaling", "statement": "armas_house without ARMAS_UNIT leaves v and beta such that H = I - 2*v*v^T is orthogonal and maps the vector to (beta;0), beta >= 0 with ARMAS_NONNEG.", "quantifier": "every vector of any length and stride, every flag", "why_tests_cant": "the case of a vector that already is a multiple of the first unit vector is easily missed", "anchors": ["src/lapack/house.c: armas_house, hhcompute_unscaled"]}
{"id": "C77", "title": "Applying a Householder reflector", "statement": "armas_houseapply2x1 and armas_houseapply replace A with H*A (ARMAS_LEFT) or A*H (ARMAS_RIGHT), H = I - tau*(1;v)*(1;v)^T, or I - 2*v*v^T for a null tau; only A and the workspace are written; a vector v of the wrong length is refused.", "quantifier": "every matrix of any shape, every reflector, both sides, vectors and matrices", "why_tests_cant": "tests use a few shapes, mostly square; the claim is for all shapes and values", "anchors": ["src/lapack/house.c: armas_houseapply, armas_houseapply2x1, armas_apply_householder2x1, armas_apply_householder1x1"]}
{"id": "C78", "title": "Product of a triangular matrix and a matrix", "statement": "armas_mult_trm replaces B with alpha*op(A)*B (ARMAS_LEFT) or alpha*B*op(A) (ARMAS_RIGHT) for a triangular A (UPPER or LOWER, transposed or not, unit diagonal or not); the other triangle of A does not count; only B is written; operands that do not fit are refused unchanged.", "quantifier": "every shape, stride, alpha and flag combination, every block size and recursion threshold, all three strategies (unblocked, recursive, blocked)", "why_tests_cant": "the blocked and recursive versions overwrite B in an order that depends on side, triangle and transposition; tests take a few sizes", "anchors": ["src/blas/trmm.c: armas_mult_trm", "src/blas/trmm_blk.c: armas_trmm_blk", "src/blas/trmm_rec.c: armas_trmm_recursive", "src/blas/trmm_unb.c: armas_trmm_unb"]}
{"id": "C79", "title": "QR factorization", "statement": "armas_qrfactor and armas_qrfactor_w replace an M-by-N matrix A, M >= N, by the upper triangle R and the vectors of N elementary reflectors, with the factors in tau, such that A = H(0)*H(1)*...*H(N-1)*R exactly in exact arithmetic, each H(k) orthogonal and symmetric, and A^T*A = R^T*R; whatever workspace of at least N elements is given, only A, the first N elements of tau and the workspace (and scratch memory) are written; with the option for non-negative diagonals R has none below zero; arguments that do not fit are reported and nothing is written.", "quantifier": "every M >= N >= 1, strides, block sizes, workspace sizes and positions, matrix contents over any ordered field with square roots", "why_tests_cant": "tests factor a few random matrices and look at the norm of A - QR; an error for another combination of size, block size and workspace, or a zero column, does not show", "anchors": ["src/lapack/qr.c: armas_qrfactor, armas_qrfactor_w, blk_qrfactor, armas_unblk_qrfactor, armas_update_qr_left", "src/lapack/house.c: armas_compute_householder", "src/include/armas.h: ARMAS_ONONNEG"]}
{"id": "C80", "title": "Block reflector of a QR factorization", "statement": "armas_qrreflector stores into T the upper triangular N-by-N matrix with H(0)*...*H(N-1) = I - Y*T*Y^T, Y the unit lower trapezoidal matrix of the reflectors stored in A; nothing else is written; a T that is too small is reported.", "quantifier": "every QR-factored matrix with M >= N, every T at least N-by-N with any contents", "why_tests_cant": "tests use T only as the routines of the library do, cleared beforehand, and check the product of the update", "anchors": ["src/lapack/qr.c: armas_qrreflector, armas_unblk_qr_reflector"]}
{"id": "C81", "title": "Multiplication by the Q of a QR factorization", "statement": "armas_qrmult and armas_qrmult_w replace C by Q*C, Q^T*C, C*Q or C*Q^T as flags say, Q being the product of the reflectors that armas_qrfactor left in A and tau; A and tau are not changed, nothing but C and the workspace (and scratch memory) is written, whatever workspace of at least one row or column of C is given; Q is orthogonal, and Q^T applied to the matrix that was factored gives R with zeros below; arguments that do not fit are reported and nothing is written.", "quantifier": "every C and factored A of fitting sizes, both sides, transposed or not, block sizes, workspace sizes and positions, contents over any field (ordered with square roots for the factorization)", "why_tests_cant": "tests multiply a few random matrices for two block sizes; another workspace size selects another block size, and the four loops differ in direction and partition", "anchors": ["src/lapack/qrmult.c: armas_qrmult, armas_qrmult_w, blk_qrmult_left, blk_qrmult_right, unblk_qrmult_left, unblk_qrmult_right", "src/lapack/qr.c: armas_update_qr_left, armas_update_qr_right, armas_qrfactor"]}
{"id": "C82", "title": "Least squares and minimum norm solutions", "statement": "armas_qrfactor of A followed by armas_qrsolve leaves in the first rows of every column b of B the x with the smallest |A*x-b|, which is unique, and in the other rows a vector as long as the residual; with ARMAS_TRANS every column of B becomes the shortest x with A^T*x = b, b being its first rows; A must have linearly independent columns; A and tau are not changed by the second call, nothing but B and the workspace (and scratch memory) is written; arguments that do not fit are reported and nothing is written.", "quantifier": "every tall or square A with independent columns, every B with as many rows, transposed or not, block sizes, workspaces, contents over any ordered field with square roots", "why_tests_cant": "that no other x is better is a claim about all vectors; tests solve systems with a known solution, where the residual is zero", "anchors": ["src/lapack/qrsolve.c: armas_qrsolve, armas_qrsolve_w", "src/lapack/qrmult.c: armas_qrmult_w", "src/lapack/qr.c: armas_qrfactor", "src/blas/trsm.c: armas_solve_trm"]}
{"id": "C83", "title": "Forming Q", "statement": "armas_qrbuild replaces A by the first columns of the product H_0*H_1*...*H_{K-1} of the reflectors stored in it and tau; after armas_qrfactor and with K the number of columns, the columns of the result are orthonormal and, times the R of the factorization, give the matrix that was factored; nothing but A and the workspace (and scratch memory) is written; arguments that do not fit are reported and nothing is written.", "quantifier": "every tall or square A, every K from 0 to the columns of A, block sizes, workspaces and what they hold before, contents over any field (after armas_qrfactor: any ordered field with square roots)", "why_tests_cant": "orthonormality and the product are equations for all matrices; how stale workspace contents interact with zero coefficients does not show for random input", "anchors": ["src/lapack/qrbld.c: armas_qrbuild, armas_qrbuild_w, blk_qrbuild, unblk_qrbuild", "src/lapack/qr.c: armas_qrfactor, armas_unblk_qr_reflector, armas_update_qr_left"]}
{"id": "C84", "title": "Symmetric matrix-matrix product", "statement": "armas_mult_sym computes C := beta*C + alpha*A*op(B), or with ARMAS_RIGHT beta*C + alpha*op(B)*A, where A is the symmetric matrix whose lower or upper triangle is stored; the other triangle is neither used nor accessed; nothing but C and scratch memory is written; sizes that do not fit and a missing scratch buffer are reported and nothing is written.", "quantifier": "all sizes, both sides, both triangles, transposed B or not, unit diagonal or not, alpha and beta over any commutative ring, scratch buffers and block configurations", "why_tests_cant": "which elements are read and how the blocks meet at the diagonal is a statement about all sizes and block sizes; tests use the default configuration", "anchors": ["src/blas/symm.c: armas_mult_sym, armas_mult_symm_left, armas_mult_symm_right, mult_symm_diag", "src/include/matcpy.h: colcpy_fill_low, colcpy_fill_up"]}
{"id": "C85", "title": "Symmetric rank-2k update", "statement": "armas_update2_sym computes C := beta*C + alpha*(A*B^T + B*A^T), or with ARMAS_TRANS beta*C + alpha*(A^T*B + B^T*A), in the upper or lower triangle of C; the other triangle is neither read nor written and need not be accessible; nothing but C and scratch memory is written; sizes that do not fit and a missing scratch buffer are reported and nothing is written.", "quantifier": "all sizes, both triangles, transposed or not, alpha and beta over any commutative ring, unblocked and recursive paths, scratch buffers and block configurations", "why_tests_cant": "how the recursion halves the triangle and where its pieces meet depends on the size and on the configuration; tests use one configuration and a few sizes", "anchors": ["src/blas/syr2k.c: armas_update2_sym, update_syr2k_unb, update_syr2k_recursive, update_syr2k_trans_unb, update_syr2k_trans_recursive"]}
{"id": "C86", "title": "BLAS names of the matrix products and symmetric updates", "statement": "A program linked against the BLAS compatibility names gets what the reference BLAS defines: xGEMM computes C := alpha*op(A)*op(B) + beta*C, xSYMM C := alpha*A*B + beta*C or alpha*B*A + beta*C, xSYRK and xSYR2K the rank-k and rank-2k updates of one triangle, for matrices given by address and leading dimension, stored by columns (Fortran names, CblasColMajor) or by rows (CblasRowMajor), for all option letters and enumerators; nothing else but scratch memory is written.", "quantifier": "all sizes and leading dimensions, all options, both storage orders, alpha and beta over any commutative ring", "why_tests_cant": "the options, orders and shapes multiply to hundreds of cases and wrong sizes are not reported to the caller, so a missed case shows only as a C left as it was; the tests do not call these names", "anchors": ["src/compat/gemm.c: blas_gemmf, cblas_gemm", "src/compat/symm.c: blas_symmf, cblas_symm", "src/compat/syrk.c: blas_syrkf", "src/compat/syr2k.c: blas_syr2kf", "src/include/float64/names_compat.h", "src/include/compat.h: CBLAS_ORDER"]}
{"id": "C87", "title": "BLAS names of the triangular products and solvers", "statement": "xTRMM through the BLAS compatibility names computes B := alpha*op(A)*B or alpha*B*op(A), and xTRSM replaces B with the solution of op(A)*X = alpha*B or X*op(A) = alpha*B, with A upper or lower triangular, transposed or not, unit diagonal or not, on the left or right, stored by columns or by rows; nothing else but scratch memory is written.", "quantifier": "all sizes and leading dimensions, all options, both storage orders, over any commutative ring (product) or field (solver) with a nonzero diagonal", "why_tests_cant": "the options and the two storage orders give 64 cases per function and wrong sizes are not reported to the caller; the tests do not call these names", "anchors": ["src/compat/trmm.c: blas_trmmf, cblas_trmm", "src/compat/trsm.c: blas_trsmf, cblas_trsm", "src/include/float64/names_compat.h", "src/include/compat.h: CBLAS_ORDER"]}
{"id": "C88", "title": "BLAS names of the vector operations", "statement": "A program linked against the Fortran BLAS compatibility names gets what the reference BLAS defines for xAXPY, xCOPY, xSWAP, xDOT, xROT, xROTG, xSCAL, xASUM, xNRM2 and IxAMAX: element k of a vector of n elements with increment inc is at k*inc, with a negative increment the vector is taken backwards from its end, the one-vector functions do nothing for increments that are not positive, the index of the largest element counts from 1; only the elements named by the arguments are read or written.", "quantifier": "all lengths, all nonzero increments of either sign, all disjoint vectors, over any commutative ring (ordered field with square roots for the norm)", "why_tests_cant": "the signs and sizes of two increments select between two code paths and three layouts of each operand; the tests do not call these names", "anchors": ["src/compat/axpy.c: blas_axpyf", "src/compat/copy.c: blas_copyf", "src/compat/swap.c: blas_swapf", "src/compat/dot.c: blas_dotf", "src/compat/rot.c: blas_rotf, blas_rotgf", "src/compat/scal.c: blas_scalf", "src/compat/asum.c: blas_asumf", "src/compat/nrm2.c: blas_nrm2f", "src/compat/iamax.c: blas_iamaxf"]}
{"id": "C89", "title": "Givens rotations", "statement": "Computing a rotation for (a, b) gives c, s, r with c*c + s*s = 1 that rotate (a, b) to (r, 0), r positive if a is; rotating two vectors, two rows or two columns of a matrix replaces them with c*x + s*y and c*y - s*x and changes nothing else; a sequence of rotations of neighbouring rows or columns is applied in forward or backward order and the number of rotations applied is returned; no element outside of the matrix is used.", "quantifier": "all numbers of an ordered field with square roots, all matrices, views, index ranges and sequences of rotations", "why_tests_cant": "zero, equal and opposite operands and the order of a sequence of rotations matter, and going past the edge of a matrix shows only in the neighbouring memory", "anchors": ["src/lapack/rotate.c: armas_gvcompute, armas_gvrotate", "src/lapack/gvrot.h: gvrotg", "src/lapack/givens.c: armas_gvleft, armas_gvright, armas_gvupdate, armas_gvrot_vec"]}
{"id": "C90", "title": "Rank-1 update of a Cholesky factor", "statement": "Given the lower or upper triangular factor of a symmetric matrix S with positive diagonal and a vector x, the update leaves in the same triangle the factor, again with positive diagonal, of S + x*x^T: the one and only factor that factoring S + x*x^T anew would give. The other triangle and all memory besides the matrix and the vector, which is overwritten, stay as they were.", "quantifier": "all sizes, both triangles, column and row vectors, all views, over any ordered field with square roots", "why_tests_cant": "each step rotates what the previous step left in the vector; tests compare norms of a few random matrices", "anchors": ["src/lapack/cholupd.c: armas_cholupdate, unblk_cholupdate_lower, unblk_cholupdate_upper"]}
{"id": "C91", "title": "Inverse of a triangular matrix", "statement": "Computing the inverse of an upper or lower triangular matrix, blocked or unblocked, with a diagonal without zeros, returns 0 and leaves in the same triangle the matrix whose product with the original, in either order, is the identity. A zero anywhere on the diagonal is reported as singular, a matrix that is not square as a size error. The other triangle and all memory besides the matrix and the scratch buffer stay as they were.", "quantifier": "all sizes, both triangles, all block sizes, all configurations of the kernels, all views, over any field", "why_tests_cant": "each step uses columns that earlier steps overwrote with parts of the inverse; block size decides the order; tests run a few sizes and compare norms", "anchors": ["src/lapack/invtrm.c: armas_inverse_trm, blk_inverse_upper, blk_inverse_lower, unblk_inverse_upper, unblk_inverse_lower"]}
{"id": "C92", "title": "Inverse of a general matrix from its LU factors", "statement": "Inverting a matrix from the factors and pivots that LU factorization left returns 0, keeps the error code and leaves the matrix whose product with the original (unfactored) matrix, in either order, is the identity, whatever rows were interchanged; without pivots it is the inverse of the product of the factors. Only the matrix, the workspace and the scratch buffer change. A matrix that is not square, a pivot vector of another length, too little workspace, a null matrix and a failed allocation are reported and nothing is written.", "quantifier": "all sizes, all pivot vectors, all workspaces, all block sizes, all configurations of the kernels, all views, over any field", "why_tests_cant": "the result is built from the right in the place of both factors, and needs the interchanges undone in the columns in reverse order; small or symmetric test matrices and matrices without interchanges hide order mistakes", "anchors": ["src/lapack/inv.c: armas_luinverse, armas_luinverse_w, unblk_inverse_fused, blk_inverse_fused"]}
{"id": "C93", "title": "Inverse of a positive definite matrix from its Cholesky factor", "statement": "Inverting a symmetric matrix from the Cholesky factor in its lower or upper triangle returns 0, keeps the error code and leaves in the same triangle the matrix whose product with the original, in either order, is the identity. The other triangle is not changed; only the matrix, the workspace and the scratch buffer are written. A matrix that is not square, too little workspace, a null matrix and a failed allocation are reported and nothing is written. A factor with a zero on its diagonal is reported as singular.", "quantifier": "all sizes, both triangles, all workspaces, all block sizes, all configurations of the kernels, all views, over any field; factors of positive definite matrices over any ordered field with square roots", "why_tests_cant": "the inverse overwrites the factor it is computed from, starting at the last row, and is symmetric while only one triangle is stored; a test compares a few matrices within a tolerance", "anchors": ["src/lapack/invspd.c: armas_cholinverse, armas_cholinverse_w, unblk_invpsd_lower, unblk_invpsd_upper, blk_invpsd_lower, blk_invpsd_upper"]}
