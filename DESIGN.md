# Formal model of hrautila/armas in Rocq (Coq 8.16.1)

The source is `/repo` (C code, read as text, never built).  The model lives in
`rocq/theories`.  `properties.jsonl` lists the properties, `MANIFEST.json` maps
each of them to theorem names, `seeded/LOG.jsonl` records the experiments with
deliberately wrong models.

## 1. Architecture

* **Memory.** A C program fragment is a value of type
  `M T A = (Z -> bool) -> (Z -> T) -> option (A * (Z -> T))`: given the set of
  allocated addresses and the contents of the memory it either yields a result
  and new contents, or `None`.  `None` is undefined behaviour: a read or write
  at an address that is not allocated.  Addresses count elements, not bytes.
  A theorem that says "the call yields `Some`" is a memory-safety theorem.
* **Views.** `armas_dense_t` is a record (base address, leading dimension, rows,
  columns); element (i,j) is at `base + j*step + i`.  Row vectors have stride
  `step`, column vectors stride 1, exactly as in the code.
* **Loops.** C `for` loops become a loop combinator with the trip count computed
  from the bounds; the four-way unrolled loops and their remainder switches are
  modelled as written.  Recursions take fuel; running out of fuel is `None`, so
  a theorem that promises `Some` also promises termination.
* **Scalars.** Data movement is proved for an arbitrary element type.
  Arithmetic is proved for an arbitrary commutative ring (or field) with Leibniz
  equality, given as explicit hypotheses of the theorem.  Floating-point rounding
  is not modelled; where real numbers are needed, the real numbers of the Coq
  standard library are used.
* **Sizes.** `int` values are modelled by `Z` without wrap-around except where
  overflow is the subject (C55).
* **Concurrency.** Transition systems with one step per atomic operation; the
  theorems are invariants over all reachable states.
* **Files.** `Mem.v`, `M*.v`: definitions only, each citing file and lines.
  `Spec*.v`: specifications, independent of the model's helpers.
  `P*.v`, `Hoare.v`, `Inst.v`: lemmas and instances.  `Properties_*.v`: nothing but the theorems, examples showing
  that their hypotheses can be met, and `Print Assumptions`.

## 2. Plan per property

| Id | What is modelled | How it is proved |
|----|------------------|------------------|
| C01 | get/set/index with negative-index adjustment | address injectivity by div/mod reasoning |
| C02 | row/column/diag/sub-view constructors | address equality and containment |
| C03 | real_index, get_at, set_at | bijection of the div/mod map |
| C04 | partition_2x2, repartition, continue, traversal loop | loop invariant over the traversal, tiling predicate |
| C05 | 2x1, 1x2, vector variants and merge | same |
| C06, C07 | CP, CPTRANS, blk copies, mcopy | loop rule with the column/row prefix invariant |
| C08, C09 | swap, copy, axpy, axpby | loop rule, pointwise effect + frame |
| C10-C13 | mscale, madd, mplus, mset, mapply | loop rule; cases where the code leaves the selected part are refuted by witnesses |
| C14, C15 | dot, asum, recursion with fuel | ring reasoning on partial sums, induction on size |
| C16, C17 | iamax, iamin | loop rule with the running maximum; iamin refuted for strided rows |
| C18 | nrm2 over R | invariant ssum*scale^2 = sum of squares |
| C19-C23 | gemv, ger, symv, syr2, trmv, trsv, kernels and recursion | kernel lemmas, induction on size |
| C24 | MGemm.v: kernels of nosimd/mult.h, kernel.h, block copies, kernel.c loops, gemm.c | written-set invariant per kernel, partial sums over the blocks, link to C30 for the scratch buffer |
| C25 | block index | integer arithmetic |
| C26 | tile tasks as sequences of atomic reads/writes, arbitrary interleavings | disjoint write sets and read-only inputs: commutation |
| C27, C28 | pivot.c | composition of transpositions |
| C29, C30 | workspace and cache buffer arithmetic | invariant over operation lists; overruns refuted by witness |
| C32, C62 | MWorkers.v: workers, their queues, the tasks and the caller as a transition system | invariant of counting sums over workers and tasks (PWorkers.v), decreasing cost |
| C31, C33, C34, C61 | MThread.v: threads with shared variables, mutexes, condition variables, atomics and futexes; MQueue.v, MCounter.v, MMutex.v | C31: lock invariant with linearization points, histories of an abstract bounded queue (SpecQueue.v); C33, C34: invariants over program positions, decreasing measure |
| C35-C38, C59, C60 | MSparse.v: armas_sparse_t, append, convert, transpose, sort, copy, todense | elements of a structure as a list (SpecSparse.v `entries`), counting-sort invariants, permutations |
| C39, C40, C68 | MSpVec.v: gemv.c, symv.c, trsv.c, trmv.c | elements of a line as sums over positions (PSpVec.v); the eight triangular kernels as four patterns of scattering and gathering (PSpTrm.v, PSpSym.v) |
| C43 | MSpVec.v: diag.c, armassp_nz, armassp_hasdiag | invariants over lines; first position with an index not below a bound (PSpDiag.v) |
| C41, C42 | MSpAcc.v: accum.c, add.c, mult.c | an accumulator holds a list of positions and a function (PSpAcc.v: what each kernel adds for one line); the lines are put one after the other (PSpLines.v) |
| C65 | trsm.c, trsm_blk.c, trsm_rec.c, trsm_unb.c over the multiplication kernel of C24 | gluing lemma for two diagonal blocks, induction on the size, loop invariant over the blocks |
| C67 | updtrmm.c, syrk.c over the multiplication kernel of C24 (MUpdTrm.v) | each step fills one block of the triangle with its final values; induction on the order, loop invariant over the blocks (PUpdTrm.v) |
| C44-C46, C48, C63, C64 | character streams, JSON tokens, matrices | induction over the input |
| C47, C69 | MMm.v: iomm.c, sparse/io.c; the C library's conversions of floating-point numbers are parameters | induction over the elements in the order written |
| C49, C50, C66 | MLap.v, MLu.v: lu.c over the kernels of C19-C24, C27 and C65 | invariant over the diagonal position (PLu.v, PLuPiv.v), composition of interchanges |
| C51 | MChol.v: chol.c (no pivoting) over C21, C65 and C67 | the columns done so far and the rest of the matrix (Schur complement, PCholM.v); one proof for both triangles (PChol.v); a bad pivot gives a vector on which the quadratic form is not positive |
| C52-C54 | sort.c, qsort.c | Permutation + order; non-termination by an invariant state |
| C55 | 32-bit arithmetic | witness |
| C70-C72 | MEft.v: eft.h, x86_64/eftops.h (twosum, fastsum, twoprod), asum_ext.c, dot_ext.c, axpy_ext.c over rounded real numbers (SpecFloat.v, Flocq's FLT format) | twosum is exact, twoprod exact up to underflow (Dekker; PEft32.v for the float split factor 2^14+1); invariant of the compensated accumulator (PEft.v, PExt.v) |
| C73, C74 | MBlas1.v of C14, C15 over rounded real numbers | any tree of additions of n terms rounds a term n-1 times at most (PRound.v); invariant of Kahan's recurrence |
| C75-C77 | MHouse.v: house.c over an ordered field with square roots; the number of turns of the rescaling loop is a parameter `steps` that must suffice (steps_ok) | algebra of I - t*v*v^T (PHouse.v, PHouse2.v); loop invariant of the rescaling; rules of mvmult, mvupdate, axpby |
| C78 | MTrmm.v: trmm.c, trmm_blk.c, trmm_rec.c, trmm_unb.c over the multiplication kernel of C24 | gluing lemma for two diagonal blocks, induction on the size, loop invariant over the blocks (PTrmm.v) |
| C79-C80 | MQr.v: all of qr.c except the conf argument | invariant A0 = H(0)...H(k-1)*(what is left), one column (PQr.v) or one block (PQrB.v, PQrF.v) at a time; the triangular factor by induction on columns (PQrB.v, PQrT.v); the update of the trailing columns from C24, C78 (PUpdQr.v) |
| C81 | MQrMul.v: all of qrmult.c except the conf argument | one reflector or one block applied to a part of C (PQrMul.v: ustep_wp, bstep_wp), loop rules for both directions, then Q as a matrix by its symmetry; the square root by monotony of rounding (Flocq) |
| C82 | MQrSolve.v: all of qrsolve.c except the conf argument | the calls by C79, C81 and the triangular solve; optimality in PQrLs.v: the residual is Q*(R*x-Q^T*b), Q keeps lengths, the part below R does not depend on x; independence of the columns gives a non-zero diagonal of R by solving a triangular system |
| C83 | MQrBld.v: all of qrbld.c except the conf argument | invariant: the columns from the current block on are H_k*...*H_{K-1} applied to unit vectors; a reflector leaves unit vectors above it alone; PQrT.v T_cols_q: stale columns of T do not matter when the vectors for tau = 0 are unit vectors and the block above is zero |
| C84 | MSymm.v: all of symm.c (no accelerators) and the symmetric block copies of matcpy.h | the copy of the diagonal block is the full symmetric block; each block of C gets three products whose sums join to one over all k; generic lemma for the two nested block loops (PSymm.v loops_wp) |
| C85 | MSyr2k.v: all of syr2k.c | as C67: programs fill parts of the triangle, the invariant says which elements are final; induction over the unblocked loop and the recursion; one triangle accessible only |
| C86 | MCompat3.v: gemm.c, symm.c, syrk.c, syr2k.c of src/compat (compiled names) | SpecBlas.v states the reference BLAS on addresses and leading dimensions; storage by rows is the transposed view; reduction to C24, C84, C67, C85; the error paths of these give the cases that do nothing |
| C87 | MCompat3.v: trmm.c, trsm.c of src/compat | the same, with C78 and C65 |
| C88 | MCompat1.v: axpy.c, copy.c, swap.c, dot.c, rot.c, scal.c, asum.c, nrm2.c, iamax.c of src/compat | SpecBlas1.v gives the addresses of the elements for increments of either sign; same signs: C08, C09, C14 on views; different signs: invariant of the loop with two running indexes; products of increments are C ints |
| C89 | MGivens.v: gvrot.h, rotate.c, givens.c | field identities for the rotation; loop invariants over rows, columns and sequences; SpecGivens.v applies rotations to index functions |
| C90 | MCholUpd.v: cholupd.c | loop invariant: the columns done so far together with the rest of the vector give the same products as before; each step is one rotation with c*c + s*s = 1 (C89); uniqueness from C51 |
| C91 | MInv.v: invtrm.c | loop invariant: the columns done so far hold the inverse of the leading (upper) or trailing (lower) block; one step adds b columns (PInvM.inv_step); the blocked step is product (C78), solve (C65), unblocked inverse of the diagonal block; right inverse from left inverse by triangularity |
| C92 | MLuInv.v: inv.c | loop invariant: in the columns done so far U*(X*L) = I, with the factors of the input and the columns of X written so far (PLuInv.linv column by column, PLuInvB.binv block by block, where the block equations are put together by PLuInvB.vcol and bstep); then X*(L*U) = I and (L*U)*X = I because both factors are triangular without zeros on the diagonal (PLuInvM); the column interchanges (C27) are the inverse of the row interchanges of the factorization (C49) |
| C93 | MInvSpd.v: invspd.c | loop invariant: the trailing block done so far, read as a symmetric matrix, is the inverse of the product of the trailing part of the factor with its transpose (PInvSpd.pinv); one block step is PInvSpdM.spd_step and, in terms of what the blocked kernels compute, PInvSpdM.spd_blk (PInvSpdB.pbround); with a zero on the diagonal only the outcome and the frame are followed (PInvSpdS); the upper triangle is treated as the transpose of the lower one |

## 3. Trusted base

* **Coq 8.16.1 kernel** (with its `vm_compute` machine, used in examples and
  witnesses only).  No axiom is declared in `rocq/theories`, no kernel check is
  switched off, nothing is admitted.
* **Axioms of libraries.**  Every theorem is followed by `Print Assumptions` in
  the file.  Most print `Closed under the global context`.  The theorems about
  square roots (C18 and the examples with real numbers) use the real numbers of
  the standard library and print its axioms: `ClassicalDedekindReals.sig_forall_dec`,
  `ClassicalDedekindReals.sig_not_dec`,
  `FunctionalExtensionality.functional_extensionality_dep`, and
  `Classical_Prop.classic` where the library lemma uses it.  So do C70-C74, which
  use Flocq (it declares no axioms).  C61_holder_runs uses
  `Classical_Prop.classic` (whether a signal finds a sleeper among all threads).
* **The translation.**  The model was written by hand from the text of `/repo`;
  each definition cites the lines it models and says what it simplifies.  That
  the C code behaves as the model says (with the compiler and the machine) is
  trusted.  Deliberate differences:
  * floating-point numbers are elements of an arbitrary commutative ring, field
    or ordered field with exact arithmetic, except in C70-C74, where every operation
    rounds its exact result to the nearest number of prec bits (ties to even,
    subnormals included).  Overflow, NaN, signed zeros and contraction of products
    and sums by the compiler are outside the model;
  * a program (Mem.v) is a tree of single memory accesses; threads interleave them
    one access at a time (sequential consistency; C26 proves the absence of data
    races, for which C11 guarantees it);
  * `int` is unbounded except where a definition uses `i32`/`u64` (C25, C29,
    C30, C55, C57);
  * the portable (non-SIMD) kernels are modelled; complex types are not;
  * `require(...)` checks (compiled only with ARMAS_WITH_CHECKS) are not
    executed; the accelerator hooks (CONFIG_ACCELERATORS, 0 by default) are off.

### What is modelled

| Source | Model |
|--------|-------|
| src/include/matrix.h, partition.h (views, indexes, partitions) | MView.v, MTraverse.v |
| src/blas/{copy,swap,mcopy,axpy,axpby,dot,asum,amax,iamin,nrm2,norm,scale,add...}.c, matcpy.h | MCopy.v, MBlas1.v, MNorm.v, MElem.v |
| src/blas/{gemv,ger,symv,syr,syr2,trmv,trsv,updtrmv}.c, nosimd/mvec.h | MBlas2.v, MSym.v, MTrm.v |
| src/blas/{gemm,kernel}.c, nosimd/mult.h, kernel.h | MGemm.v |
| src/blas/{trsm,trsm_blk,trsm_rec,trsm_unb}.c | MTrsm.v |
| src/blas/{trmm,trmm_blk,trmm_rec,trmm_unb}.c | MTrmm.v |
| src/lapack/qr.c | MQr.v |
| src/lapack/qrmult.c | MQrMul.v |
| src/lapack/qrsolve.c | MQrSolve.v |
| src/lapack/qrbld.c | MQrBld.v |
| src/blas/symm.c, colcpy_fill_* of src/include/matcpy.h | MSymm.v |
| src/blas/syr2k.c | MSyr2k.v |
| src/compat/{gemm,symm,syrk,syr2k,trmm,trsm}.c, enumerators of src/include/compat.h | MCompat3.v |
| src/compat/{axpy,copy,swap,dot,rot,scal,asum,nrm2,iamax}.c (Fortran names) | MCompat1.v |
| src/lapack/gvrot.h (without AVX), rotate.c, givens.c | MGivens.v |
| src/lapack/cholupd.c | MCholUpd.v |
| src/lapack/invtrm.c | MInv.v |
| src/lapack/inv.c | MLuInv.v |
| src/lapack/invspd.c | MInvSpd.v |
| src/blas/updtrmm.c, src/blas/syrk.c (update_sym) | MUpdTrm.v |
| src/lapack/chol.c without pivoting (armas_cholesky, armas_cholsolve) | MChol.v |
| src/lapack/lu.c, src/include/pivot.h (views of pivots) | MLap.v (the loop over the diagonal, the configuration), MLu.v |
| src/lapack/house.c (armas_house, armas_house_vec, armas_houseapply, armas_houseapply2x1 and what they call) | MHouse.v |
| tile tasks of src/workers/gemm.c, src/threaded/gemm.c; interleaved execution | MPar.v |
| src/workers/workers.c (worker_thread, sched_workers_schedule), workers.h (worker_all_ready), gemm.c:180-226 | MWorkers.v |
| src/workers/{queue,counter,sync}.h | MThread.v, MQueue.v, MCounter.v, MMutex.v |
| src/include/pivot.h, src/base/pivot.c | MPivot.v |
| src/base/{cache,wbuf...}.c, workspace functions of armas.h, block index | MBase.v |
| src/io/{ios,json_reader,json_writer,json_base}.c | MIo.v |
| src/lapack/{sort,qsort}.c | MSort.v |
| src/sparse/{init,convert,sort,transpose,copy...}.c | MSparse.v |
| src/sparse/{gemv,symv,trsv,trmv,diag}.c, armassp_hasdiag of util.c, armassp_nz of include/sparse.h | MSpVec.v |
| src/io/iomm.c, armassp_mmload and armassp_mmdump of src/sparse/io.c | MMm.v |
| src/include/eft.h, x86_64/eftops.h (scalar transformations), src/eblas/{asum_ext,dot_ext,axpy_ext}.c (sum, adot, axpby) | MEft.v |
| src/sparse/{accum,add,mult}.c, the accumulator of include/sparse.h, armas_wreserve_bytes and relatives | MSpAcc.v |

### What is not modelled (yet)

The rest of src/lapack, the other BLAS-3 routines, sparse incomplete factorizations
and iterative solvers, the transient scheduler of src/workers, the extended-precision BLAS
beyond vectors,
the rest of the compatibility layer, SIMD kernels and complex types.
