#!/usr/bin/env python3
# Regenerates /verif/properties.jsonl from the table below (one JSON object per line).
import json, os
P = []
def p(title, statement, quantifier, why, anchors):
    P.append(dict(id="C%02d" % (len(P)+1), title=title, statement=statement,
                  quantifier=quantifier, why_tests_cant=why, anchors=anchors))

p("Element access through a matrix view is exact",
  "For a view whose leading dimension is at least its row count, distinct (row, column) pairs of the view name distinct memory cells; armas_set followed by armas_get at the same position returns the value written, every other element of the view and every cell outside the view keeps its value, and a negative row or column index -k names the k-th element from the end.",
  "every view shape, leading dimension, index pair (positive and negative), element type and memory content",
  "aliasing between two index pairs depends on the combination of rows, step and both indices; a test touches a handful of shapes",
  ["src/include/matrix.h: armas_get, armas_set, armas_get_unsafe, armas_set_unsafe, armas_index"])
p("Sub-views alias exactly the parent elements they name",
  "Row, column, diagonal, submatrix and subvector views share storage with their parent: element (i, j) of the view is the parent element at the documented position, the view never reaches outside the parent, and a view of a view is the view of the composed offsets.",
  "every parent shape and every offset/extent inside it",
  "every combination of offset, extent, stride and diagonal number would have to be enumerated",
  ["src/include/matrix.h: armas_submatrix, armas_submatrix_ext, armas_submatrix_unsafe, armas_row, armas_column, armas_diag, armas_subvector"])
p("Linear element access enumerates a matrix in column-major order",
  "armas_get_at / armas_set_at with linear index k reach row k mod rows, column k div rows; the indices 0..size-1 (and the negative aliases) enumerate every element of the matrix exactly once, for every leading dimension.",
  "every shape, leading dimension and linear index",
  "index arithmetic with division depends on all of rows, step and index",
  ["src/include/matrix.h: armas_real_index, armas_set_at, armas_get_at, armas_set_at_unsafe, armas_get_at_unsafe"])
p("Block partitioning of a matrix is an exact tiling and block traversals terminate",
  "Partitioning a matrix into 2x2 blocks and repartitioning to 3x3 blocks yields blocks that tile the matrix (every element lies in exactly one block), and the partition / repartition / continue loop used by every blocked algorithm advances by the block size each turn, visits every diagonal position exactly once and stops, in both directions.",
  "every matrix shape, every block size, every number of completed iterations, both traversal directions",
  "needs every iteration of the traversal of every shape and block size",
  ["src/include/partition.h: mat_partition_2x2, mat_repartition_2x2to3x3, mat_continue_3x3to2x2"])
p("Row/column/vector partitioning is an exact tiling, and merging undoes it",
  "The 2x1, 1x2 and vector partition, repartition and continue operations split a matrix or vector into adjacent, disjoint, covering parts for any requested block size, and merging two adjacent blocks gives back the block they were split from.",
  "every shape, block size, direction and traversal position",
  "same as above",
  ["src/include/partition.h: mat_partition_2x1, mat_repartition_2x1to3x1, mat_continue_3x1to2x1, mat_partition_1x2, mat_repartition_1x2to1x3, mat_continue_1x3to1x2, mat_merge2x1, mat_merge1x2, vec_partition_2x1, vec_repartition_2x1to3x1, vec_continue_3x1to2x1"])
p("Matrix copy",
  "armas_mcopy copies every element of the source to the same position of the destination when shapes agree, touches nothing else, never accesses memory outside the two matrices, and reports an error without touching memory when the shapes do not agree.",
  "every shape, leading dimension, memory content and element type",
  "the copy loops are unrolled by four in both directions with separate remainders; every residue of rows and columns modulo four matters",
  ["src/blas/mcopy.c: armas_mcopy", "src/include/matcpy.h: CP, blk_copy"])
p("Transposed copy",
  "armas_mcopy with the transpose flag stores source element (i, j) at destination (j, i) for all elements and touches nothing else; copying transposed twice gives back the original matrix.",
  "every shape, leading dimension, memory content and element type",
  "same unrolling argument as for plain copy",
  ["src/blas/mcopy.c: armas_mcopy", "src/include/matcpy.h: CPTRANS"])
p("Vector swap and copy",
  "armas_swap exchanges two vectors of equal length element by element (row and column vectors in any mixture), leaves all other memory alone and is its own inverse; armas_copy makes the target equal to the source.",
  "every length, stride, orientation and content",
  "unrolled loops with remainders, two independent strides",
  ["src/blas/swap.c: armas_swap", "src/blas/mcopy.c: armas_copy"])
p("Scaled vector addition",
  "armas_axpy and armas_axpby store beta*y[i] + alpha*x[i] in y[i] for every index, do not change x and touch nothing else, whatever the orientation and stride of the two vectors.",
  "every length, stride, orientation, content and pair of scalars, over any commutative ring",
  "unrolled loops with remainders, special cases for the scalars",
  ["src/blas/axpy.c: armas_axpy, armas_axpby"])
p("Scaling touches exactly the selected elements",
  "armas_scale and armas_mscale multiply exactly the elements selected by the flags (all, upper or lower triangle, with or without the diagonal) by the constant and change no other memory cell.",
  "every shape, leading dimension, flag combination and content",
  "selection depends on the shape and on every flag combination",
  ["src/blas/mscale.c: armas_scale, armas_mscale, vec_scale", "src/include/matcpy.h: blk_scale"])
p("Adding a constant touches exactly the selected elements",
  "armas_madd adds the constant to exactly the elements selected by the flags and changes no other memory cell.",
  "every shape, leading dimension, flag combination and content",
  "selection depends on the shape and on every flag combination",
  ["src/blas/madd.c: armas_madd"])
p("Matrix sum",
  "armas_mplus computes alpha*A + beta*op(B) in exactly the elements selected by the flags, where op is transposition when requested, and changes no other memory cell.",
  "every shape, leading dimension, flag combination and content",
  "the triangular loops work on blocks of four columns with a triangular head or tail",
  ["src/blas/mplus.c: armas_mplus, madd, madd_lower, madd_upper"])
p("Element generators and element-wise maps",
  "armas_set_values, armas_make_trm, armas_apply and armas_apply2 write exactly the documented part of the matrix (all, triangle, symmetric, with or without diagonal) with the documented values and never write outside the matrix.",
  "every shape including wide and tall matrices, leading dimension, flags and functions",
  "the boundary of a trapezoid against the matrix edge depends on the shape",
  ["src/blas/mset.c: armas_set_values, armas_make_trm", "src/blas/mapply.c: armas_apply, armas_apply2, armas_iterate"])
p("The inner product does not depend on the summation strategy",
  "armas_dot and armas_adot return the sum of x[i]*y[i] over all elements, whether the straightforward or the recursive strategy is selected and for every recursion threshold; they do not modify memory.",
  "every length, stride, orientation, threshold and content, over any commutative ring",
  "four partial accumulators, remainder code and recursion over halves and quarters",
  ["src/blas/dot.c: armas_dot, armas_adot, vec_dot, vec_dot_recursive"])
p("Sum of absolute values does not depend on the summation strategy",
  "armas_asum returns the sum of |x[i]| over all elements for every strategy (straightforward, compensated, recursive) and recursion threshold.",
  "every length, stride, orientation, threshold and content, exact arithmetic",
  "same as the inner product",
  ["src/blas/asum.c: armas_asum"])
p("Index of the element of largest magnitude",
  "armas_iamax returns the smallest index whose element has the largest absolute value, and armas_amax that value, for every vector.",
  "every length, stride, orientation and content over a total order",
  "unrolled comparison loop; ties and position of the maximum matter",
  ["src/blas/iamax.c: armas_iamax, armas_amax"])
p("Index of the element of smallest magnitude",
  "armas_iamin returns the smallest index whose element has the smallest absolute value, for row and column vectors alike.",
  "every length, stride, orientation and content",
  "ties, strides and position of the minimum matter",
  ["src/blas/iamax.c: armas_iamin"])
p("Euclidean norm by scaled summation",
  "armas_nrm2 (and the Frobenius norm) equals the square root of the sum of squares although it is computed with running rescaling, for every vector including those with zeros; no division by zero occurs.",
  "every length, orientation and content, over the reals",
  "the rescaling path depends on the order of magnitudes in the vector",
  ["src/blas/nrm2.c: armas_nrm2", "src/blas/mnorm.c: matrix_norm_frb"])
p("General matrix-vector product",
  "armas_mvmult stores beta*y + alpha*op(A)*x in y for both strategies (unblocked and recursive) and every recursion threshold for which it terminates, changes nothing but y and never leaves the operands.",
  "every shape, leading dimension, stride, orientation, flags, threshold and content over a commutative ring",
  "recursion by halves over an unrolled kernel with remainders",
  ["src/blas/gemv.c: armas_mvmult, gemv_unb, gemv_recursive", "src/include/nosimd/mvec.h"])
p("Rank-one update",
  "armas_mvupdate stores beta*A + alpha*x*y^T in A for both strategies and changes nothing else.",
  "every shape, leading dimension, stride, orientation, threshold and content over a commutative ring",
  "recursion by halves over an unrolled kernel with remainders",
  ["src/blas/ger.c: armas_mvupdate"])
p("Symmetric matrix-vector product and symmetric updates read and write only the stored triangle",
  "armas_mvmult_sym computes beta*y + alpha*A*x where A is the symmetric matrix defined by the stored triangle; the other triangle is neither read nor written; armas_mvupdate_sym, armas_mvupdate2_sym and armas_mvupdate_trm update exactly the stored triangle.",
  "every order, leading dimension, stride, triangle, threshold and content",
  "the unreferenced triangle may hold anything",
  ["src/blas/symv.c: armas_mvmult_sym", "src/blas/syr2.c: armas_mvupdate2_sym", "src/blas/updtrmv.c: armas_mvupdate_trm"])
p("Triangular matrix-vector product",
  "armas_mvmult_trm replaces x by alpha*op(A)*x, A being the triangular matrix selected by the flags with stored or unit diagonal, for every strategy and threshold; only x changes.",
  "every order, leading dimension, stride, flag combination, threshold and content",
  "in-place update order matters for every element",
  ["src/blas/trmv.c: armas_mvmult_trm"])
p("Triangular solve",
  "armas_mvsolve_trm replaces b by the x with op(A)*x = alpha*b whenever the diagonal is invertible, for upper/lower, transposed, unit-diagonal and every strategy and threshold; only the vector changes.",
  "every order, leading dimension, stride, flag combination, threshold and content over a field",
  "in-place substitution order matters for every element",
  ["src/blas/trsv.c: armas_mvsolve_trm"])
p("Blocked matrix product equals the definition",
  "armas_mult stores beta*C + alpha*op(A)*op(B) in C for every positive cache block configuration; A and B and all other memory except the scratch buffer are unchanged.",
  "every shape, leading dimension, flags, block sizes (including sizes that do not divide the dimensions) and content",
  "three blocking loops times unrolled kernels times transposition cases",
  ["src/blas/gemm.c: armas_mult", "src/blas/kernel.c: armas_mult_kernel, armas_mult_kernel_inner", "src/include/kernel.h", "src/include/nosimd/mult.h"])
p("Work splitting covers the result exactly once",
  "The block boundaries used to split a matrix over threads are monotone, start at zero, end at the full extent and (except the last) are multiples of four, so that the tiles handed to the workers are pairwise disjoint and cover the result.",
  "every extent and every number of blocks",
  "integer rounding for every pair of extent and block count",
  ["src/include/accel.h: armas_ac_block_index", "src/workers/gemm.c", "src/threaded/gemm.c"])
p("Parallel execution gives the sequential result under every schedule",
  "Executing the tile tasks of a parallel matrix operation in any order or interleaving of their reads and writes gives the same final memory as executing them one after the other.",
  "every schedule of the workers, every tiling, every matrix content",
  "the number of interleavings is astronomically large",
  ["src/workers/gemm.c", "src/workers/workers.h: worker_tiles", "src/threaded/gemm.c"])
p("Row and column pivoting",
  "armas_pivot_rows / armas_pivot_cols apply the stored interchanges in the order given by the direction flag: the result is the original matrix with its rows (columns) permuted by the composition of the transpositions; applying forward and then backward restores the matrix.",
  "every matrix shape, pivot vector with valid indices, direction",
  "the composition depends on the whole pivot vector",
  ["src/base/pivot.c: armas_pivot_rows, armas_pivot_cols, armas_pivot"])
p("Symmetric pivoting acts on the stored triangle only",
  "Symmetric pivoting of a matrix stored in one triangle gives the stored triangle of P*A*P^T and leaves the other triangle untouched.",
  "every order, leading dimension, pivot index and content",
  "the swap is split into three segments around the pivot; every relative position matters",
  ["src/base/pivot.c: armas_pivot, apply_pivot_lower, apply_pivot_upper"])
p("Workspace allocation never overlaps and never leaves the buffer",
  "Any sequence of reserve, reset and position operations on a workspace buffer hands out regions that lie inside the buffer and, until a reset, are pairwise disjoint; a request that does not fit is refused and changes nothing.",
  "every buffer size and every sequence of operations",
  "depends on the whole history of operations",
  ["src/include/armas.h: armas_walloc, armas_wmake, armas_wreserve, armas_wreserve_bytes, armas_wreset, armas_wpos, armas_wsetpos, armas_wbytes"])
p("Cache buffer splitting stays inside the buffer",
  "The block buffers carved out of the working cache memory are aligned, disjoint and lie inside the memory they are carved from, for every configuration accepted.",
  "every memory size, alignment of the base address, block size and element size",
  "pointer alignment and rounding for every size",
  ["src/base/cache.c: armas_cbuf_init, armas_cbuf_make, armas_cbuf_split2, armas_cbuf_split3, armas_cache_setup2, armas_cache_setup3"])
p("The task queue is a bounded FIFO",
  "Any history of enqueue and dequeue operations on a task queue delivers exactly the enqueued tasks, once each and in order, never more than the capacity in flight; a writer finding the queue full and a reader finding it empty are told so.",
  "every capacity and every history of operations",
  "wrap-around of the ring indices over unbounded histories",
  ["src/workers/queue.h"])
p("Every scheduled task runs exactly once",
  "With several workers and tasks possibly offered to two queues, every task is executed exactly once, under every interleaving of the workers.",
  "every number of workers and tasks, every schedule",
  "the race between two workers claiming the same task has unboundedly many interleavings",
  ["src/workers/workers.c", "src/workers/scheduler.h"])
p("The lock gives mutual exclusion",
  "At most one thread holds the scheduler lock at any time, a release is only ever performed on a held lock and a blocked thread is woken after a release, under every interleaving of the atomic operations and futex calls.",
  "every number of threads and every schedule including spurious wake-ups",
  "unboundedly many interleavings",
  ["src/workers/sync.h"])
p("Waiting for completion returns only when all tasks are done and is not missed",
  "The completion counter releases the waiting thread exactly when the last task has been accounted for; no wake-up is lost and the counter never goes negative.",
  "every number of tasks and workers, every schedule",
  "unboundedly many interleavings",
  ["src/workers/counter.h", "src/workers/sync.h", "src/workers/workers.c"])
p("Building a sparse matrix by appending",
  "Appending elements to a coordinate-format matrix keeps every earlier element and adds the new one behind them, the element count equals the number of successful appends, the storage grows beyond the reserved count as needed, a failing append leaves the matrix unchanged, and positions outside the dimensions are refused.",
  "every sequence of append operations and every size",
  "depends on the whole history",
  ["src/sparse/util.c: armassp_append, armassp_resize, armassp_new, armassp_init", "src/include/sparse.h: armas_sparse_t"])
p("Storage format conversion preserves the matrix",
  "Converting a sparse matrix from coordinate to compressed column or row format (or between the compressed formats) yields a structurally valid matrix that stores the same elements (a position stored several times stays so), so that the matrix has the same value at every position, with ascending indices in every line; converting to the format the matrix already has and converting a matrix without elements do the same.",
  "every sparse matrix, any order of its elements",
  "counting-sort style index manipulation depends on the whole element list",
  ["src/sparse/convert.c: armassp_convert_to, armassp_convert"])
p("Sparse transposition",
  "Transposing a compressed sparse matrix yields a valid matrix whose element (i, j) is the original (j, i); transposing twice gives back the original matrix.",
  "every compressed sparse matrix",
  "depends on the whole index structure",
  ["src/sparse/convert.c: armassp_transpose_to, armassp_transpose"])
p("Sorting a compressed sparse matrix",
  "armassp_sort puts the indices within every column (row) in ascending order and only permutes the (index, value) pairs of that column (row).",
  "every compressed sparse matrix",
  "permutation property for every input",
  ["src/sparse/sort.c: armassp_sort, simple_sort, compressed_sort"])
p("Sparse matrix-vector product",
  "armassp_mvmult computes beta*y + alpha*op(A)*x where A is the matrix denoted by the compressed structure, and reports an error when the sizes do not fit.",
  "every compressed matrix including rectangular ones, vectors and scalars, both orientations",
  "depends on the whole structure and on the shape",
  ["src/sparse/gemv.c: armassp_mvmult"])
p("Sparse triangular solve and multiply",
  "armassp_mvsolve_trm replaces b by the solution of op(A)*x = alpha*b and armassp_mvmult_trm by alpha*op(A)*b, for sorted triangular compressed matrices with a full diagonal.",
  "every such matrix, vector, scalar and flag combination",
  "in-place substitution over an irregular structure",
  ["src/sparse/trsv.c: armassp_mvsolve_trm", "src/sparse/trmv.c: armassp_mvmult_trm"])
p("Sparse addition",
  "armassp_add / armassp_addto_w compute alpha*A + beta*B: the result is structurally valid and has the right element at every position.",
  "every pair of compressed matrices of equal kind and shape",
  "accumulator reuse between rows and exact-fit storage",
  ["src/sparse/add.c: armassp_addto_w, armassp_add", "src/sparse/accum.c"])
p("Sparse product",
  "armassp_multto_w computes alpha*op(A)*op(B) into a structurally valid result.",
  "every pair of compatible compressed matrices, scalar and transposition flags",
  "accumulator reuse between rows, scalar handling per variant",
  ["src/sparse/mult.c: armassp_multto_w, armassp_mult", "src/sparse/accum.c"])
p("Diagonal operations on sparse matrices",
  "armassp_add_diag adds mu to every stored diagonal element and changes no other element; armassp_mult_diag scales rows or columns by the given vector; armassp_hasdiag tells whether a diagonal is fully stored.",
  "every compressed matrix, sorted or with missing diagonal elements",
  "behaviour at a missing diagonal depends on the neighbouring row",
  ["src/sparse/diag.c: armassp_add_diag, armassp_mult_diag", "src/sparse/util.c: armassp_hasdiag, armassp_nz"])
p("JSON tokens are read within the buffer and reading terminates",
  "Reading a token from any character stream terminates at or before the end of the stream and never writes outside the token buffer.",
  "every character sequence and every buffer length",
  "the input is arbitrary",
  ["src/io/json_reader.c: armas_json_read_token"])
p("JSON matrix round trip",
  "A matrix written with armas_json_write is read back by armas_json_read with the same dimensions and the same elements, given that the number formatting used round-trips.",
  "every shape and content of finite elements",
  "all shapes including empty and all texts of numbers",
  ["src/io/json_base.c: armas_json_write, armas_json_read", "src/io/json_writer.c"])
p("JSON coordinate input stays inside the matrix",
  "Reading a matrix given in coordinate form stores the listed elements inside the matrix and silently discards coordinates outside of it.",
  "every list of coordinates",
  "the input is arbitrary",
  ["src/io/json_base.c: armas_json_read_coorddata"])
p("Matrix Market round trip",
  "armas_mmdump followed by armas_mmload gives back the matrix (its lower triangle in symmetric format), given that the number formatting used round-trips.",
  "every shape and content",
  "the packed position arithmetic of the symmetric format depends on the order",
  ["src/io/iomm.c: armas_mmload, armas_mmdump"])
p("Character streams support push-back",
  "On a string or buffer stream, a character pushed back is the next one read, reading returns the bytes of the buffer in order and writing never exceeds the buffer.",
  "every buffer and every history of get, unget and put operations",
  "depends on the history",
  ["src/io/ios.c: wb_getc, wb_ungetc, wb_putc"])
p("LU factorization",
  "After armas_lufactor the unit lower and upper triangles L and U satisfy P*A = L*U for the recorded interchanges, with and without pivoting, whenever no zero pivot is met.",
  "every square or rectangular matrix over a field, blocked or not",
  "all matrices, all pivot orders",
  ["src/lapack/lu.c: armas_lufactor, unblk_lufactor, unblk_lufactor_nopiv"])
p("Solving with an LU factorization",
  "armas_lusolve returns the X with A*X = B, or A^T*X = B when the transpose flag is set, given the factorization of A.",
  "every factored matrix and right-hand side",
  "order of the two triangular solves and of the interchanges matters for every input",
  ["src/lapack/lu.c: armas_lusolve"])
p("Cholesky factorization",
  "After armas_cholesky the stored triangle L satisfies L*L^T = A for every matrix on which the factorization succeeds; the other triangle is untouched; a non-positive pivot is reported.",
  "every symmetric matrix",
  "all matrices",
  ["src/lapack/chol.c: armas_cholesky, unblk_cholfactor_lower, unblk_cholfactor_upper"])
p("Sorting a vector",
  "armas_sort_vec sorts the vector ascending or descending: the result is ordered and a permutation of the input.",
  "every vector over a total order",
  "permutation and order for every input",
  ["src/lapack/sort.c: armas_sort_vec"])
p("Quicksort of a vector",
  "armas_qsort_vec terminates and sorts every vector, including vectors with repeated elements.",
  "every vector",
  "termination of the partition loop depends on the values",
  ["src/lapack/qsort.c: armas_qsort_vec"])
p("Sorting eigenvalues keeps eigenvectors attached",
  "armas_sort_eigenvec orders the eigenvalue vector and applies the same permutation to the columns of U, the rows of V and the columns of C.",
  "every vector and companion matrices",
  "pairing must hold for every permutation",
  ["src/lapack/sort.c: armas_sort_eigenvec"])
p("Size queries do not lie",
  "armas_size returns the number of elements for every pair of dimensions representable by the matrix type, and allocation sizes are computed without overflow.",
  "all pairs of 32-bit dimensions",
  "overflow occurs only for very large dimensions",
  ["src/include/matrix.h: armas_size", "src/base/matrix.c: armas_init", "src/include/armas.h: armas_wreserve"])
exec(open(os.path.join(os.path.dirname(__file__), "moreprops.py")).read()) if os.path.exists(os.path.join(os.path.dirname(__file__), "moreprops.py")) else None
with open(os.path.join(os.path.dirname(__file__), "..", "properties.jsonl"), "w") as f:
    for x in P:
        f.write(json.dumps(x) + "\n")
print(len(P), "properties")
