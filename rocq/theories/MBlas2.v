(* MBlas2.v: model of the matrix-vector kernels of src/include/nosimd/mvec.h
   and of the functions of src/blas/gemv.c and src/blas/ger.c. *)
From Coq Require Import ZArith Bool.
From Verif Require Import Mem MView MFlags MCopy MNum MBlas1 MElem.
Local Open Scope Z_scope.
Local Open Scope prog_scope.

(* for (k = 0; k < N-1; k += 2) b2(k);  if (k == N) stop;  f(k);
   the loops of mvec.h that are unrolled twice *)
Definition unroll2_acc {T A} (N : Z) (b2 f : Z -> A -> M T A) (a : A) : M T A :=
  a <- for_acc 0 (N - 1) 2 b2 a ;;
  if loop_end 0 (N - 1) 2 =? N then ret a else f (loop_end 0 (N - 1) 2) a.

Definition unroll2 {T} (N : Z) (b2 f : Z -> M T unit) : M T unit :=
  unroll2_acc N (fun i _ => b2 i) (fun i _ => f i) tt.

(* for (j = 0; j < N-3; j += 4) f4(j);  if (j == N) return;
   switch (N-j) { case 3: case 2: f2(j); j += 2; }  if (j < N) f1(j);
   the column loops of gemv.c *)
Definition unroll421 {T} (N : Z) (f4 f2 f1 : Z -> M T unit) : M T unit :=
  for_up 0 (N - 3) 4 f4 ;;
  let j := loop_end 0 (N - 3) 4 in
  if j =? N then ret tt
  else
    let two := (N - j =? 3) || (N - j =? 2) in
    when two (f2 j) ;;
    let j := if two then j + 2 else j in
    when (j <? N) (f1 j).

Section Blas2.
  Context {T : Type}.
  Variable K : num T.
  Local Notation "x +' y" := (add K x y) (at level 50, left associativity).
  Local Notation "x -' y" := (sub K x y) (at level 50, left associativity).
  Local Notation "x *' y" := (mul K x y) (at level 40, left associativity).

  (* The kernels take pointers (addresses) and increments as in C.  g is the
     identity in the plain kernels and ABS in those named ..._abs. *)

  (* y[k*incy] += v; *)
  Definition incr (p : Z) (v : T) : M T unit := modify p (fun x => x +' v).

  (* mvec.h:48-77 vmult1axpy, 79-108 vmult1axpy_abs *)
  Definition vmult1axpy (g : T -> T) (y incy a0 x incx : Z) (alpha : T) (nR : Z) : M T unit :=
    x0 <- rd x ;; let cf := alpha *' g x0 in
    let one k := u <- rd (a0 + k) ;; incr (y + k * incy) (g u *' cf) in
    unroll4 nR (fun k => one (k + 0) ;; one (k + 1) ;; one (k + 2) ;; one (k + 3)) one.

  (* mvec.h:110-148 vmult2axpy, 150-189 vmult2axpy_abs *)
  Definition vmult2axpy (g : T -> T) (y incy a0 a1 x incx : Z) (alpha : T) (nR : Z) : M T unit :=
    x0 <- rd x ;; let cf0 := alpha *' g x0 in
    x1 <- rd (x + incx) ;; let cf1 := alpha *' g x1 in
    unroll4 nR
      (fun k =>
         u0 <- rd (a0 + (k + 0)) ;; u1 <- rd (a0 + (k + 1)) ;;
         u2 <- rd (a0 + (k + 2)) ;; u3 <- rd (a0 + (k + 3)) ;;
         u4 <- rd (a1 + (k + 0)) ;; u5 <- rd (a1 + (k + 1)) ;;
         u6 <- rd (a1 + (k + 2)) ;; u7 <- rd (a1 + (k + 3)) ;;
         incr (y + (k + 0) * incy) (g u0 *' cf0 +' g u4 *' cf1) ;;
         incr (y + (k + 1) * incy) (g u1 *' cf0 +' g u5 *' cf1) ;;
         incr (y + (k + 2) * incy) (g u2 *' cf0 +' g u6 *' cf1) ;;
         incr (y + (k + 3) * incy) (g u3 *' cf0 +' g u7 *' cf1))
      (fun k =>
         u0 <- rd (a0 + k) ;; u4 <- rd (a1 + k) ;;
         incr (y + k * incy) (g u0 *' cf0 +' g u4 *' cf1)).

  (* mvec.h:191-229 vmult4axpy, 231-269 vmult4axpy_abs *)
  Definition vmult4axpy (g : T -> T) (y incy a0 a1 a2 a3 x incx : Z) (alpha : T) (nR : Z) : M T unit :=
    x0 <- rd x ;; let cf0 := alpha *' g x0 in
    x1 <- rd (x + incx) ;; let cf1 := alpha *' g x1 in
    x2 <- rd (x + 2 * incx) ;; let cf2 := alpha *' g x2 in
    x3 <- rd (x + 3 * incx) ;; let cf3 := alpha *' g x3 in
    unroll2 nR
      (fun k =>
         u0 <- rd (a0 + (k + 0)) ;; u1 <- rd (a0 + (k + 1)) ;;
         u2 <- rd (a1 + (k + 0)) ;; u3 <- rd (a1 + (k + 1)) ;;
         u4 <- rd (a2 + (k + 0)) ;; u5 <- rd (a2 + (k + 1)) ;;
         u6 <- rd (a3 + (k + 0)) ;; u7 <- rd (a3 + (k + 1)) ;;
         incr (y + (k + 0) * incy) (g u0 *' cf0 +' g u2 *' cf1 +' g u4 *' cf2 +' g u6 *' cf3) ;;
         incr (y + (k + 1) * incy) (g u1 *' cf0 +' g u3 *' cf1 +' g u5 *' cf2 +' g u7 *' cf3))
      (fun k =>
         u0 <- rd (a0 + k) ;; u2 <- rd (a1 + k) ;; u4 <- rd (a2 + k) ;; u6 <- rd (a3 + k) ;;
         incr (y + k * incy) (g u0 *' cf0 +' g u2 *' cf1 +' g u4 *' cf2 +' g u6 *' cf3)).

  (* The dot product kernels; h is the product of two elements: a*x in the
     plain kernels, ABS(a*x) in vmult1dot_abs and ABS(a)*ABS(x) in
     vmult2dot_abs and vmult4dot_abs. *)

  (* mvec.h:271-302 vmult1dot, 304-335 vmult1dot_abs; the element with 3, 2, 1
     elements left is added to t0, t1, t2 *)
  Definition vmult1dot (h : T -> T -> T) (y incy a0 x incx : Z) (alpha : T) (nR : Z) : M T unit :=
    t <- unroll4_acc nR
      (fun k t => let '(t0, t1, t2, t3) := t in
         u0 <- rd (a0 + (k + 0)) ;; x0 <- rd (x + (k + 0) * incx) ;;
         u1 <- rd (a0 + (k + 1)) ;; x1 <- rd (x + (k + 1) * incx) ;;
         u2 <- rd (a0 + (k + 2)) ;; x2 <- rd (x + (k + 2) * incx) ;;
         u3 <- rd (a0 + (k + 3)) ;; x3 <- rd (x + (k + 3) * incx) ;;
         ret (t0 +' h u0 x0, t1 +' h u1 x1, t2 +' h u2 x2, t3 +' h u3 x3))
      (fun k t => let '(t0, t1, t2, t3) := t in
         u <- rd (a0 + k) ;; v <- rd (x + k * incx) ;;
         ret (if nR - k =? 3 then (t0 +' h u v, t1, t2, t3)
              else if nR - k =? 2 then (t0, t1 +' h u v, t2, t3)
              else (t0, t1, t2 +' h u v, t3)))
      (zero K, zero K, zero K, zero K) ;;
    let '(t0, t1, t2, t3) := t in
    incr y ((t0 +' t1 +' (t2 +' t3)) *' alpha).

  (* mvec.h:337-380 vmult2dot, 382-426 vmult2dot_abs *)
  Definition vmult2dot (h : T -> T -> T) (y incy a0 a1 x incx : Z) (alpha : T) (nR : Z) : M T unit :=
    t <- unroll4_acc nR
      (fun k t => let '(t0, t1, t2, t3, (t4, t5, t6, t7)) := t in
         u0 <- rd (a0 + (k + 0)) ;; x0 <- rd (x + (k + 0) * incx) ;;
         u1 <- rd (a0 + (k + 1)) ;; x1 <- rd (x + (k + 1) * incx) ;;
         u2 <- rd (a0 + (k + 2)) ;; x2 <- rd (x + (k + 2) * incx) ;;
         u3 <- rd (a0 + (k + 3)) ;; x3 <- rd (x + (k + 3) * incx) ;;
         u4 <- rd (a1 + (k + 0)) ;; u5 <- rd (a1 + (k + 1)) ;;
         u6 <- rd (a1 + (k + 2)) ;; u7 <- rd (a1 + (k + 3)) ;;
         ret (t0 +' h u0 x0, t1 +' h u1 x1, t2 +' h u2 x2, t3 +' h u3 x3,
              (t4 +' h u4 x0, t5 +' h u5 x1, t6 +' h u6 x2, t7 +' h u7 x3)))
      (fun k t => let '(t0, t1, t2, t3, (t4, t5, t6, t7)) := t in
         u <- rd (a0 + k) ;; v <- rd (x + k * incx) ;; w <- rd (a1 + k) ;;
         ret (if nR - k =? 3 then (t0 +' h u v, t1, t2, t3, (t4 +' h w v, t5, t6, t7))
              else if nR - k =? 2 then (t0, t1 +' h u v, t2, t3, (t4, t5 +' h w v, t6, t7))
              else (t0, t1, t2 +' h u v, t3, (t4, t5, t6 +' h w v, t7))))
      (zero K, zero K, zero K, zero K, (zero K, zero K, zero K, zero K)) ;;
    let '(t0, t1, t2, t3, (t4, t5, t6, t7)) := t in
    incr y ((t0 +' t1 +' (t2 +' t3)) *' alpha) ;;
    incr (y + incy) ((t4 +' t5 +' (t6 +' t7)) *' alpha).

  (* mvec.h:428-472 vmult4dot, 474-518 vmult4dot_abs *)
  Definition vmult4dot (h : T -> T -> T) (y incy a0 a1 a2 a3 x incx : Z) (alpha : T) (nR : Z) : M T unit :=
    t <- unroll2_acc nR
      (fun k t => let '(t0, t1, t2, t3, (t4, t5, t6, t7)) := t in
         u0 <- rd (a0 + (k + 0)) ;; x0 <- rd (x + (k + 0) * incx) ;;
         u1 <- rd (a0 + (k + 1)) ;; x1 <- rd (x + (k + 1) * incx) ;;
         u2 <- rd (a1 + (k + 0)) ;; u3 <- rd (a1 + (k + 1)) ;;
         u4 <- rd (a2 + (k + 0)) ;; u5 <- rd (a2 + (k + 1)) ;;
         u6 <- rd (a3 + (k + 0)) ;; u7 <- rd (a3 + (k + 1)) ;;
         ret (t0 +' h u0 x0, t1 +' h u1 x1, t2 +' h u2 x0, t3 +' h u3 x1,
              (t4 +' h u4 x0, t5 +' h u5 x1, t6 +' h u6 x0, t7 +' h u7 x1)))
      (fun k t => let '(t0, t1, t2, t3, (t4, t5, t6, t7)) := t in
         u0 <- rd (a0 + k) ;; v <- rd (x + k * incx) ;;
         u2 <- rd (a1 + k) ;; u4 <- rd (a2 + k) ;; u6 <- rd (a3 + k) ;;
         ret (t0 +' h u0 v, t1, t2 +' h u2 v, t3, (t4 +' h u4 v, t5, t6 +' h u6 v, t7)))
      (zero K, zero K, zero K, zero K, (zero K, zero K, zero K, zero K)) ;;
    let '(t0, t1, t2, t3, (t4, t5, t6, t7)) := t in
    incr y ((t0 +' t1) *' alpha) ;;
    incr (y + incy) ((t2 +' t3) *' alpha) ;;
    incr (y + 2 * incy) ((t4 +' t5) *' alpha) ;;
    incr (y + 3 * incy) ((t6 +' t7) *' alpha).

  (* &A->elems[j*A->step] *)
  Definition colp (A : view) (j : Z) : Z := elems A + j * step A.

  (* the transposed case of gemv.c: h1 is the product in vmult1dot, h the one
     in vmult2dot and vmult4dot; gemv.c:48-77 and 131-161 *)
  Definition gemv_dots (h1 h : T -> T -> T) (Y : view) (alpha : T) (A X : view) : M T unit :=
    let x := elems X + 0 * vinc X in
    let y i := elems Y + i * vinc Y in
    unroll421 (cols A)
      (fun i => vmult4dot h (y i) (vinc Y) (colp A (i + 0)) (colp A (i + 1)) (colp A (i + 2)) (colp A (i + 3))
                          x (vinc X) alpha (rows A))
      (fun i => vmult2dot h (y i) (vinc Y) (colp A (i + 0)) (colp A (i + 1)) x (vinc X) alpha (rows A))
      (fun i => vmult1dot h1 (y i) (vinc Y) (colp A (i + 0)) x (vinc X) alpha (rows A)).

  (* the other case, gemv.c:81-108 and 165-189; y is the pointer to the first
     element written and n1 the length given to vmult1axpy *)
  Definition gemv_axpys (g : T -> T) (y n1 : Z) (Y : view) (alpha : T) (A X : view) : M T unit :=
    let x j := elems X + j * vinc X in
    unroll421 (cols A)
      (fun j => vmult4axpy g y (vinc Y) (colp A (j + 0)) (colp A (j + 1)) (colp A (j + 2)) (colp A (j + 3))
                           (x j) (vinc X) alpha (rows A))
      (fun j => vmult2axpy g y (vinc Y) (colp A (j + 0)) (colp A (j + 1)) (x j) (vinc X) alpha (rows A))
      (fun j => vmult1axpy g y (vinc Y) (colp A (j + 0)) (x j) (vinc X) alpha n1).

  (* src/blas/gemv.c:33-109 gemv_unb_abs: y starts at &Y->elems[yinc], and the
     last column is given the length A->cols *)
  Definition gemv_unb_abs (Y : view) (alpha : T) (A X : view) (flags : Z) : M T unit :=
    if has flags ARMAS_TRANS then
      gemv_dots (fun a x => abs K (a *' x)) (fun a x => abs K a *' abs K x) Y alpha A X
    else gemv_axpys (abs K) (elems Y + vinc Y) (cols A) Y alpha A X.

  (* src/blas/gemv.c:111-190 gemv_unb *)
  Definition gemv_unb (Y : view) (alpha : T) (A X : view) (flags : Z) : M T unit :=
    if has flags ARMAS_ABSA then gemv_unb_abs Y alpha A X flags
    else if has flags ARMAS_TRANSA || has flags ARMAS_TRANS then
      gemv_dots (mul K) (mul K) Y alpha A X
    else gemv_axpys (fun a => a) (elems Y + 0 * vinc Y) (rows A) Y alpha A X.

  (* src/blas/gemv.c:192-231 gemv_recursive *)
  Fixpoint gemv_recursive (fuel : nat) (Y : view) (alpha : T) (A X : view) (flags minsz : Z) : M T unit :=
    match fuel with
    | O => fail
    | S fuel =>
      let ny := armas_size Y in
      let nx := armas_size X in
      if (minsz =? 0) || (ny <? minsz) || (nx <? minsz) then gemv_unb Y alpha A X flags
      else
        let b := mat_partition_2x2 A (Z.quot (rows A) 2) (Z.quot (cols A) 2) PTop in
        let '(xT, xB) := vec_partition_2x1 X (Z.quot nx 2) PTop in
        let '(yT, yB) := vec_partition_2x1 Y (Z.quot ny 2) PTop in
        gemv_recursive fuel yT alpha (ATL b) xT flags minsz ;;
        (if has flags ARMAS_TRANS then
           gemv_recursive fuel yT alpha (ABL b) xB flags minsz ;;
           gemv_recursive fuel yB alpha (ATR b) xT flags minsz
         else
           gemv_recursive fuel yT alpha (ATR b) xB flags minsz ;;
           gemv_recursive fuel yB alpha (ABL b) xT flags minsz) ;;
        gemv_recursive fuel yB alpha (ABR b) xB flags minsz
    end.

  (* src/blas/gemv.c:236-251 armas_mvmult_unsafe; env->blas2min is an argument *)
  Definition armas_mvmult_unsafe (fuel : nat) (blas2min : Z) (beta : T) (y : view) (alpha : T) (A x : view)
      (flags : Z) : M T unit :=
    if armas_size A =? 0 then ret tt
    else
      when (negb (eqb K beta (one K))) (armas_scale_unsafe K y beta) ;;
      gemv_recursive fuel y alpha A x flags blas2min.

  (* src/blas/gemv.c:274-321 armas_mvmult; conf->optflags is an argument *)
  Definition armas_mvmult (fuel : nat) (blas2min optflags : Z) (beta : T) (y : view) (alpha : T) (A x : view)
      (flags : Z) : M T Z :=
    let nx := armas_size x in
    let ny := armas_size y in
    if (armas_size A =? 0) || (armas_size x =? 0) || (armas_size y =? 0) then ret 0
    else if negb (armas_isvector x && armas_isvector y) then ret (- ARMAS_ENEED_VECTOR)
    else
      let ok := if Z.land flags ARMAS_TRANS =? ARMAS_TRANS
                then (cols A =? ny) && (rows A =? nx)
                else (rows A =? ny) && (cols A =? nx) in
      if negb ok then ret (- ARMAS_ESIZE)
      else
        when (negb (eqb K beta (one K))) (armas_scale_unsafe K y beta) ;;
        (if has optflags ARMAS_ONAIVE then gemv_unb y alpha A x flags
         else gemv_recursive fuel y alpha A x flags blas2min) ;;
        ret 0.

  (* ---- ger.c ---- *)

  (* p = beta*p + x*y0 with x = X->elems[i*xinc] *)
  Definition ger1 (beta : T) (p x : Z) (y0 : T) : M T unit :=
    a <- rd p ;; v <- rd x ;; wr p (beta *' a +' v *' y0).

  (* src/blas/ger.c:28-94 update4axpy *)
  Definition update4axpy (beta : T) (A : view) (alpha : T) (X Y : view) (Mr : Z) : M T unit :=
    v0 <- rd (elems Y) ;; let y0 := alpha *' v0 in
    v1 <- rd (elems Y + vinc Y) ;; let y1 := alpha *' v1 in
    v2 <- rd (elems Y + 2 * vinc Y) ;; let y2 := alpha *' v2 in
    v3 <- rd (elems Y + 3 * vinc Y) ;; let y3 := alpha *' v3 in
    let row i :=
      ger1 beta (elems A + i) (elems X + i * vinc X) y0 ;;
      ger1 beta (elems A + step A + i) (elems X + i * vinc X) y1 ;;
      ger1 beta (elems A + 2 * step A + i) (elems X + i * vinc X) y2 ;;
      ger1 beta (elems A + 3 * step A + i) (elems X + i * vinc X) y3 in
    unroll4 Mr (fun i => row (i + 0) ;; row (i + 1) ;; row (i + 2) ;; row (i + 3)) row.

  (* src/blas/ger.c:96-130 update1axpy *)
  Definition update1axpy (beta : T) (A : view) (alpha : T) (X Y : view) (Mr : Z) : M T unit :=
    v0 <- rd (elems Y) ;; let y0 := alpha *' v0 in
    let row i := ger1 beta (elems A + i) (elems X + i * vinc X) y0 in
    unroll4 Mr (fun i => row (i + 0) ;; row (i + 1) ;; row (i + 2) ;; row (i + 3)) row.

  (* src/blas/ger.c:135-159 update_ger_unb *)
  Definition update_ger_unb (beta : T) (A : view) (alpha : T) (X Y : view) : M T unit :=
    unroll4c (cols A)
      (fun j => update4axpy beta (armas_submatrix_unsafe A 0 j (rows A) 4) alpha X
                  (armas_subvector_unsafe Y j 4) (rows A))
      (fun j => update1axpy beta (armas_submatrix_unsafe A 0 j (rows A) 1) alpha X
                  (armas_subvector_unsafe Y j 1) (rows A)).

  (* src/blas/ger.c:161-192 update_ger_recursive *)
  Fixpoint update_ger_recursive (fuel : nat) (beta : T) (A : view) (alpha : T) (X Y : view) (minsz : Z) : M T unit :=
    match fuel with
    | O => fail
    | S fuel =>
      if (rows A <? minsz) || (cols A <? minsz) then update_ger_unb beta A alpha X Y
      else
        let b := mat_partition_2x2 A (Z.quot (rows A) 2) (Z.quot (cols A) 2) PTop in
        let '(xT, xB) := vec_partition_2x1 X (Z.quot (rows A) 2) PTop in
        let '(yT, yB) := vec_partition_2x1 Y (Z.quot (cols A) 2) PTop in
        update_ger_recursive fuel beta (ATL b) alpha xT yT minsz ;;
        update_ger_recursive fuel beta (ATR b) alpha xT yB minsz ;;
        update_ger_recursive fuel beta (ABL b) alpha xB yT minsz ;;
        update_ger_recursive fuel beta (ABR b) alpha xB yB minsz
    end.

  (* src/blas/ger.c:194-203 armas_mvupdate_unsafe *)
  Definition armas_mvupdate_unsafe (fuel : nat) (blas2min : Z) (beta : T) (A : view) (alpha : T) (X Y : view) : M T unit :=
    update_ger_recursive fuel beta A alpha X Y blas2min.

  (* src/blas/ger.c:219-262 armas_mvupdate *)
  Definition armas_mvupdate (fuel : nat) (blas2min optflags : Z) (beta : T) (A : view) (alpha : T) (x y : view) : M T Z :=
    let nx := armas_size x in
    let ny := armas_size y in
    if (armas_size A =? 0) || (nx =? 0) || (ny =? 0) then ret 0
    else if negb (armas_isvector x) then ret (- ARMAS_ENEED_VECTOR)
    else if negb (armas_isvector y) then ret (- ARMAS_ENEED_VECTOR)
    else if negb (cols A =? ny) || negb (rows A =? nx) then ret (- ARMAS_ESIZE)
    else
      (if optflags =? ARMAS_ONAIVE then update_ger_unb beta A alpha x y
       else update_ger_recursive fuel beta A alpha x y blas2min) ;;
      ret 0.
End Blas2.
