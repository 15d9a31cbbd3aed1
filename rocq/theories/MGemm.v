(* MGemm.v: model of the matrix-matrix kernels of src/include/nosimd/mult.h and
   src/include/kernel.h, of the block copies of src/include/matcpy.h, and of
   src/blas/kernel.c and src/blas/gemm.c.

   The kernels modelled are the portable ones (nosimd/mult.h); the SIMD versions
   compute the same sums in another order of additions. *)
From Coq Require Import ZArith Bool.
From Verif Require Import Mem MView MFlags MCopy MNum MBlas1 MElem MBlas2 MBase.
Local Open Scope Z_scope.
Local Open Scope prog_scope.

(* for (i = lo; i < hi; i += s) with a step that is a parameter of the program: the loop
   does not end when the step is not positive *)
Definition for_step {T} (lo hi s : Z) (f : Z -> M T unit) : M T unit :=
  if negb (lo <? hi) then ret tt else if s <=? 0 then fail else for_up lo hi s f.

Section Gemm.
  Context {T : Type}.
  Variable K : num T.
  Local Notation "x +' y" := (add K x y) (at level 50, left associativity).
  Local Notation "x *' y" := (mul K x y) (at level 40, left associativity).
  Local Notation "'z0'" := (zero K).

  (* the C expression  p[k]*q[k] *)
  Definition prod1 (p q k : Z) : M T T := x <- rd (p + k) ;; y <- rd (q + k) ;; ret (x *' y).

  (* nosimd/mult.h:12-41 __mult1c1 *)
  Definition mult1c1 (c a b : Z) (alpha : T) (nR : Z) : M T unit :=
    y <- unroll4_acc nR
      (fun k y => let '(y0, y1, y2, y3) := y in
         p0 <- prod1 a b k ;;
         p1 <- prod1 a b (k + 1) ;;
         p2 <- prod1 a b (k + 2) ;;
         p3 <- prod1 a b (k + 3) ;;
         ret (y0 +' p0, y1 +' p1, y2 +' p2, y3 +' p3))
      (fun k y => let '(y0, y1, y2, y3) := y in
         p <- prod1 a b k ;;
         ret (if nR - k =? 3 then (y0 +' p, y1, y2, y3)
              else if nR - k =? 2 then (y0, y1 +' p, y2, y3)
              else (y0, y1, y2 +' p, y3)))
      (z0, z0, z0, z0) ;;
    let '(y0, y1, y2, y3) := y in
    incr K c ((y0 +' y1 +' (y2 +' y3)) *' alpha).

  (* nosimd/mult.h:45-86 __mult1c2 *)
  Definition mult1c2 (c0 c1 a b0 b1 : Z) (alpha : T) (nR : Z) : M T unit :=
    y <- unroll4_acc nR
      (fun k y => let '(y0, y1, y2, y3, y4, y5, y6, y7) := y in
         p0 <- prod1 a b0 (k + 0) ;; p1 <- prod1 a b1 (k + 0) ;;
         p2 <- prod1 a b0 (k + 1) ;; p3 <- prod1 a b1 (k + 1) ;;
         p4 <- prod1 a b0 (k + 2) ;; p5 <- prod1 a b1 (k + 2) ;;
         p6 <- prod1 a b0 (k + 3) ;; p7 <- prod1 a b1 (k + 3) ;;
         ret (y0 +' p0, y1 +' p1, y2 +' p2, y3 +' p3, y4 +' p4, y5 +' p5, y6 +' p6, y7 +' p7))
      (fun k y => let '(y0, y1, y2, y3, y4, y5, y6, y7) := y in
         p0 <- prod1 a b0 k ;; p1 <- prod1 a b1 k ;;
         ret (if nR - k =? 3 then (y0 +' p0, y1 +' p1, y2, y3, y4, y5, y6, y7)
              else if nR - k =? 2 then (y0, y1, y2 +' p0, y3 +' p1, y4, y5, y6, y7)
              else (y0, y1, y2, y3, y4 +' p0, y5 +' p1, y6, y7)))
      (z0, z0, z0, z0, z0, z0, z0, z0) ;;
    let '(y0, y1, y2, y3, y4, y5, y6, y7) := y in
    incr K c0 ((y0 +' (y2 +' y4 +' y6)) *' alpha) ;;
    incr K c1 ((y1 +' (y3 +' y5 +' y7)) *' alpha).

  (* nosimd/mult.h:90-126 __mult2c2 *)
  Definition mult2c2 (c0 c1 a0 a1 b0 b1 : Z) (alpha : T) (nR : Z) : M T unit :=
    y <- unroll2_acc nR
      (fun k y => let '(y0, y1, y2, y3, y4, y5, y6, y7) := y in
         p0 <- prod1 a0 b0 (k + 0) ;; p1 <- prod1 a0 b1 (k + 0) ;;
         p2 <- prod1 a0 b0 (k + 1) ;; p3 <- prod1 a0 b1 (k + 1) ;;
         p4 <- prod1 a1 b0 (k + 0) ;; p5 <- prod1 a1 b1 (k + 0) ;;
         p6 <- prod1 a1 b0 (k + 1) ;; p7 <- prod1 a1 b1 (k + 1) ;;
         ret (y0 +' p0, y1 +' p1, y2 +' p2, y3 +' p3, y4 +' p4, y5 +' p5, y6 +' p6, y7 +' p7))
      (fun k y => let '(y0, y1, y2, y3, y4, y5, y6, y7) := y in
         p0 <- prod1 a0 b0 (k + 0) ;; p1 <- prod1 a0 b1 (k + 0) ;;
         p4 <- prod1 a1 b0 (k + 0) ;; p5 <- prod1 a1 b1 (k + 0) ;;
         ret (y0 +' p0, y1 +' p1, y2, y3, y4 +' p4, y5 +' p5, y6, y7))
      (z0, z0, z0, z0, z0, z0, z0, z0) ;;
    let '(y0, y1, y2, y3, y4, y5, y6, y7) := y in
    incr K c0 ((y0 +' y2) *' alpha) ;;
    incr K c1 ((y1 +' y3) *' alpha) ;;
    incr K (c0 + 1) ((y4 +' y6) *' alpha) ;;
    incr K (c1 + 1) ((y5 +' y7) *' alpha).

  (* nosimd/mult.h:131-154 __mult1c4 *)
  Definition mult1c4 (c0 c1 c2 c3 a b0 b1 b2 b3 : Z) (alpha : T) (nR : Z) : M T unit :=
    y <- for_acc 0 nR 1
      (fun k y => let '(y0, y1, y2, y3) := y in
         p0 <- prod1 a b0 k ;; p1 <- prod1 a b1 k ;;
         p2 <- prod1 a b2 k ;; p3 <- prod1 a b3 k ;;
         ret (y0 +' p0, y1 +' p1, y2 +' p2, y3 +' p3))
      (z0, z0, z0, z0) ;;
    let '(y0, y1, y2, y3) := y in
    incr K c0 (y0 *' alpha) ;;
    incr K c1 (y1 *' alpha) ;;
    incr K c2 (y2 *' alpha) ;;
    incr K c3 (y3 *' alpha).

  (* nosimd/mult.h:157-188 __mult2c4 *)
  Definition mult2c4 (c0 c1 c2 c3 a0 a1 b0 b1 b2 b3 : Z) (alpha : T) (nR : Z) : M T unit :=
    y <- for_acc 0 nR 1
      (fun k y => let '(y0, y1, y2, y3, y4, y5, y6, y7) := y in
         p0 <- prod1 a0 b0 k ;; p1 <- prod1 a0 b1 k ;;
         p2 <- prod1 a0 b2 k ;; p3 <- prod1 a0 b3 k ;;
         p4 <- prod1 a1 b0 k ;; p5 <- prod1 a1 b1 k ;;
         p6 <- prod1 a1 b2 k ;; p7 <- prod1 a1 b3 k ;;
         ret (y0 +' p0, y1 +' p1, y2 +' p2, y3 +' p3, y4 +' p4, y5 +' p5, y6 +' p6, y7 +' p7))
      (z0, z0, z0, z0, z0, z0, z0, z0) ;;
    let '(y0, y1, y2, y3, y4, y5, y6, y7) := y in
    incr K c0 (y0 *' alpha) ;;
    incr K c1 (y1 *' alpha) ;;
    incr K c2 (y2 *' alpha) ;;
    incr K c3 (y3 *' alpha) ;;
    incr K (c0 + 1) (y4 *' alpha) ;;
    incr K (c1 + 1) (y5 *' alpha) ;;
    incr K (c2 + 1) (y6 *' alpha) ;;
    incr K (c3 + 1) (y7 *' alpha).

  (* &X->elems[i + j*X->step] *)
  Definition at_ (X : view) (i j : Z) : Z := elems X + (i + j * step X).

  (* src/include/kernel.h:123-151 __CMULT4 *)
  Definition CMULT4 (C A B : view) (alpha : T) (col nI nP : Z) : M T unit :=
    let b t := elems B + (col + t) * step B in
    let c i t := at_ C i (col + t) in
    let a i := elems A + i * step A in
    for_up 0 (nI - 1) 2 (fun i =>
      mult2c4 (c i 0) (c i 1) (c i 2) (c i 3) (a (i + 0)) (a (i + 1)) (b 0) (b 1) (b 2) (b 3) alpha nP) ;;
    let i := loop_end 0 (nI - 1) 2 in
    when (negb (i =? nI))
      (mult1c4 (c i 0) (c i 1) (c i 2) (c i 3) (a (i + 0)) (b 0) (b 1) (b 2) (b 3) alpha nP).

  (* src/include/kernel.h:155-176 __CMULT2 *)
  Definition CMULT2 (C A B : view) (alpha : T) (col nI nP : Z) : M T unit :=
    let b t := elems B + (col + t) * step B in
    let c i t := at_ C i (col + t) in
    let a i := elems A + i * step A in
    for_up 0 (nI - 1) 2 (fun i =>
      mult2c2 (c i 0) (c i 1) (a (i + 0)) (a (i + 1)) (b 0) (b 1) alpha nP) ;;
    let i := loop_end 0 (nI - 1) 2 in
    when (negb (i =? nI))
      (mult1c2 (c i 0) (c i 1) (a (i + 0)) (b 0) (b 1) alpha nP).

  (* src/include/kernel.h:179-191 __CMULT1 *)
  Definition CMULT1 (C A B : view) (alpha : T) (col nI nP : Z) : M T unit :=
    for_up 0 nI 1 (fun i =>
      mult1c1 (at_ C i (col + 0)) (elems A + i * step A) (elems B + (col + 0) * step B) alpha nP).

  (* src/blas/kernel.c:36-65 armas_mult_kernel_inner; the int rb is the step of the loop *)
  Definition armas_mult_kernel_inner (Cblk : view) (alpha : T) (Ablk Bblk : view) (rb : Z) : M T unit :=
    for_step 0 (rows Cblk) rb (fun kp =>
      let nK := Z.min rb (rows Cblk - kp) in
      let Ca := armas_submatrix_unsafe Cblk kp 0 nK (cols Cblk) in
      let Ac := armas_submatrix_unsafe Ablk 0 kp (rows Ablk) nK in
      for_up 0 (cols Cblk - 3) 4 (fun j => CMULT4 Ca Ac Bblk alpha j nK (rows Ablk)) ;;
      let j := loop_end 0 (cols Cblk - 3) 4 in
      if j =? cols Cblk then ret tt
      else
        when (j <? cols Cblk - 1) (CMULT2 Ca Ac Bblk alpha j nK (rows Ablk)) ;;
        let j := if j <? cols Cblk - 1 then j + 2 else j in
        when (j <? cols Cblk) (CMULT1 Ca Ac Bblk alpha j nK (rows Ablk))).

  (* d = ABS(s) *)
  Definition cpa (d s : Z) : M T unit := x <- rd s ;; wr d (abs K x).

  (* src/include/matcpy.h:24-41 copy_plain_abs *)
  Definition copy_plain_abs (d ldD s ldS nR nC : Z) : M T unit :=
    unroll4c nC
      (fun j => for_up 0 nR 1 (fun i =>
         cpa (d + (i + (j + 0) * ldD)) (s + (i + (j + 0) * ldS)) ;;
         cpa (d + (i + (j + 1) * ldD)) (s + (i + (j + 1) * ldS)) ;;
         cpa (d + (i + (j + 2) * ldD)) (s + (i + (j + 2) * ldS)) ;;
         cpa (d + (i + (j + 3) * ldD)) (s + (i + (j + 3) * ldS))))
      (fun j => for_up 0 nR 1 (fun i =>
         cpa (d + (i + (j + 0) * ldD)) (s + (i + (j + 0) * ldS)))).

  (* src/include/matcpy.h:86-110 copy_trans1x4_abs *)
  Definition copy_trans1x4_abs (d ldD s ldS nR nC : Z) : M T unit :=
    for_up 0 nC 1 (fun j =>
      unroll4 nR
        (fun i =>
           cpa (d + ((j + 0) + (i + 0) * ldD)) (s + ((i + 0) + (j + 0) * ldS)) ;;
           cpa (d + ((j + 0) + (i + 1) * ldD)) (s + ((i + 1) + (j + 0) * ldS)) ;;
           cpa (d + ((j + 0) + (i + 2) * ldD)) (s + ((i + 2) + (j + 0) * ldS)) ;;
           cpa (d + ((j + 0) + (i + 3) * ldD)) (s + ((i + 3) + (j + 0) * ldS)))
        (fun i => cpa (d + (j + i * ldD)) (s + (i + j * ldS)))).

  (* src/include/matcpy.h:113-127 copy_trans4x1_abs *)
  Definition copy_trans4x1_abs (d ldD s ldS nR nC : Z) : M T unit :=
    for_up 0 (nC - 3) 4 (fun j =>
      for_up 0 nR 1 (fun i =>
        cpa (d + ((j + 0) + (i + 0) * ldD)) (s + (i + (j + 0) * ldS)) ;;
        cpa (d + ((j + 1) + (i + 0) * ldD)) (s + (i + (j + 1) * ldS)) ;;
        cpa (d + ((j + 2) + (i + 0) * ldD)) (s + (i + (j + 2) * ldS)) ;;
        cpa (d + ((j + 3) + (i + 0) * ldD)) (s + (i + (j + 3) * ldS)))) ;;
    let j := loop_end 0 (nC - 3) 4 in
    when (negb (j =? nC))
      (copy_trans1x4_abs (d + j) ldD (s + j * ldS) ldS nR (nC - j)).

  Definition absflags : Z := Z.lor ARMAS_ABSA ARMAS_ABSB.

  (* src/include/matcpy.h:364-372 CPBLK_TRANS, real types *)
  Definition CPBLK_TRANS (d s : view) (nR nC flags : Z) : M T unit :=
    if has flags absflags
    then copy_trans4x1_abs (elems d) (step d) (elems s) (step s) nR nC
    else copy_trans4x1 (elems d) (step d) (elems s) (step s) nR nC.

  (* src/include/matcpy.h:375-383 CPBLK, real types *)
  Definition CPBLK (d s : view) (nR nC flags : Z) : M T unit :=
    if has flags absflags
    then copy_plain_abs (elems d) (step d) (elems s) (step s) nR nC
    else copy_plain_mcpy1 (elems d) (step d) (elems s) (step s) nR nC.

  Definition transA : Z := Z.lor ARMAS_TRANSA ARMAS_CTRANSA.
  Definition transB : Z := Z.lor ARMAS_TRANSB ARMAS_CTRANSB.

  (* The loops over kp and ip for the columns jp..jp+nJ-1 of C, src/blas/kernel.c:96-122
     and 153-179.  The block addresses in the cache_t are here indexes of elements. *)
  Definition mult_panel (C : view) (alpha : T) (A B : view) (flags P jp nJ : Z) (rb : Z) (ch : cache) : M T unit :=
    for_step 0 P (KB ch) (fun kp =>
      let nP := Z.min (KB ch) (P - kp) in
      let Bc := armas_make nP nJ (ab_step ch) (Bcpy ch) in
      (if has flags transB
       then CPBLK_TRANS Bc (armas_submatrix_unsafe B jp kp nJ nP) nJ nP flags
       else CPBLK Bc (armas_submatrix_unsafe B kp jp nP nJ) nP nJ flags) ;;
      for_step 0 (rows C) (MB ch) (fun ip =>
        let nI := Z.min (MB ch) (rows C - ip) in
        let Ac := armas_make nP nI (ab_step ch) (Acpy ch) in
        (if has flags transA
         then CPBLK Ac (armas_submatrix_unsafe A kp ip nP nI) nP nI flags
         else CPBLK_TRANS Ac (armas_submatrix_unsafe A ip kp nI nP) nI nP flags) ;;
        armas_mult_kernel_inner (armas_submatrix_unsafe C ip jp nI nJ) alpha Ac Bc rb)).

  (* src/blas/kernel.c:68-124 armas_mult_kernel *)
  Definition armas_mult_kernel (beta : T) (C : view) (alpha : T) (A B : view) (flags : Z) (ch : cache) : M T unit :=
    if eqb K alpha (zero K) then
      when (negb (eqb K beta (one K))) (armas_scale_unsafe K C beta)
    else
      let P := if has flags transA then rows A else cols A in
      for_step 0 (cols C) (NB ch) (fun jp =>
        let nJ := Z.min (NB ch) (cols C - jp) in
        blk_scale K (armas_submatrix_unsafe C 0 jp (rows C) nJ) beta (rows C) nJ ;;
        mult_panel C alpha A B flags P jp nJ (rb ch) ch).

  (* src/blas/kernel.c:126-182 armas_mult_kernel_nc.  The corrected rb is stored in the
     cache_t by the C code; here it is local, which differs only when rb is not in 1..MB *)
  Definition armas_mult_kernel_nc (C : view) (alpha : T) (A B : view) (flags : Z) (ch : cache) : M T unit :=
    if eqb K alpha (zero K) then ret tt
    else
      let rb := if (rb ch =? 0) || (rb ch >? MB ch) then Z.quot (MB ch) 2 else rb ch in
      let P := if has flags transA then rows A else cols A in
      for_step 0 (cols C) (NB ch) (fun jp =>
        let nJ := Z.min (NB ch) (cols C - jp) in
        mult_panel C alpha A B flags P jp nJ rb ch).

  (* The cache_t of armas_cache_setup2 has byte addresses; elements are p bytes long and
     the addresses are multiples of p *)
  Definition elem_cache (ch : cache) (p : Z) : cache :=
    mkcache (Acpy ch / p) (Bcpy ch / p) (dC ch / p) (ab_step ch) (c_step ch) (MB ch) (NB ch) (KB ch) (rb ch).

  (* the size check, src/blas/gemm.c:74-95 *)
  Definition gemm_ok (C A B : view) (flags : Z) : bool :=
    let s := Z.land flags (Z.lor transA transB) in
    if (s =? Z.lor ARMAS_TRANSA ARMAS_TRANSB) || (s =? Z.lor ARMAS_TRANSA ARMAS_CTRANSB)
       || (s =? Z.lor ARMAS_CTRANSA ARMAS_CTRANSB) || (s =? Z.lor ARMAS_CTRANSA ARMAS_TRANSB) then
      (rows C =? cols A) && (cols C =? rows B) && (rows A =? cols B)
    else if (s =? ARMAS_TRANSA) || (s =? ARMAS_CTRANSA) then
      (rows C =? cols A) && (cols C =? cols B) && (rows A =? rows B)
    else if (s =? ARMAS_TRANSB) || (s =? ARMAS_CTRANSB) then
      (rows C =? rows A) && (cols C =? rows B) && (cols A =? cols B)
    else
      (rows C =? rows A) && (cols C =? cols B) && (cols A =? rows B).

  (* src/blas/gemm.c:57-122 armas_mult without accelerators (CONFIG_ACCELERATORS is 0 by
     default, src/include/dtype.h:15).  cb is what armas_cbuf_select found, None when it
     failed; mb, nb, kb come from the environment; p = sizeof(DTYPE) *)
  Definition armas_mult (cb : option cbuf) (mb nb kb p : Z)
      (beta : T) (C : view) (alpha : T) (A B : view) (flags : Z) : M T Z :=
    if (armas_size A =? 0) || (armas_size B =? 0) || (armas_size C =? 0) then ret 0
    else if negb (gemm_ok C A B flags) then ret (- ARMAS_ESIZE)
    else match cb with
    | None => ret (- ARMAS_EMEMORY)
    | Some cb =>
      armas_mult_kernel beta C alpha A B flags (elem_cache (armas_cache_setup2 cb mb nb kb p) p) ;;
      ret 0
    end.
End Gemm.
