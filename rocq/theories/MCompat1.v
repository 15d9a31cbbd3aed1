(* MCompat1.v: model of the Fortran BLAS names for vector operations, src/compat/{axpy,copy,dot,swap,scal,asum,
   nrm2,iamax,rot}.c.  Vectors are the addresses of their first elements; scalar arguments are passed by
   value instead of by address, except those of xROTG.  The cblas_ names of these files are left out: no
   header defines them, so they are not compiled. *)
From Coq Require Import ZArith Bool.
From Verif Require Import Mem MView MFlags MBase MCopy MNum MBlas1 MElem MBlas2 MTrm MGemm MLap MGivens.
Local Open Scope Z_scope.
Local Open Scope prog_scope.

Section Compat1.
  (* E: armas_conf_default() and the environment *)
  Context {T : Type} (K : num T) (E : lenv).

  (* a product of two C ints; overflow is undefined behaviour *)
  Definition imul (a b : Z) : M T Z :=
    if (- 2 ^ 31 <=? a * b) && (a * b <? 2 ^ 31) then ret (a * b) else fail.

  (* src/compat/axpy.c:35-47, copy.c:35-47, dot.c:35-47, swap.c:35-47, rot.c:37-49: view of a vector of two-vector functions,
     inc is the absolute value of the increment *)
  Definition vec2 (n inc X : Z) : view :=
    if inc =? 1 then armas_make n 1 n X else armas_make 1 n inc X.

  (* src/compat/axpy.c:53-61, copy.c:54-60, dot.c:54-62, swap.c:53-61, rot.c:51-61:
       ix = incx < 0 ? n-1 : 0;  iy = incy < 0 ? n-1 : 0;
       nx = ix == 0 ? 1 : -1;  ny = iy == 0 ? 1 : -1;
       for (k = 0; k < n; ix += nx, iy += ny, k++) f(ix, iy) *)
  Definition walk {A} (n incx incy : Z) (f : Z -> Z -> A -> M T A) (a : A) : M T A :=
    let ix := if incx <? 0 then n - 1 else 0 in
    let iy := if incy <? 0 then n - 1 else 0 in
    let nx := if ix =? 0 then 1 else -1 in
    let ny := if iy =? 0 then 1 else -1 in
    s <- for_acc 0 n 1 (fun _ s => a <- f (fst (fst s)) (snd (fst s)) (snd s) ;;
           ret (fst (fst s) + nx, snd (fst s) + ny, a)) (ix, iy, a) ;;
    ret (snd s).

  (* src/compat/axpy.c:26-62 compat_axpy; :65-68 blas_axpyf *)
  Definition blas_axpyf (n : Z) (alpha : T) (X incx Y incy : Z) : M T unit :=
    let x := vec2 n (Z.abs incx) X in
    let y := vec2 n (Z.abs incy) Y in
    p <- imul incx incy ;;
    if p >? 0 then _ <- armas_axpy K y alpha x ;; ret tt
    else walk n incx incy (fun ix iy _ =>
           xv <- armas_get_at_unsafe x ix ;;
           yv <- armas_get_at_unsafe y iy ;;
           armas_set_at_unsafe y iy (add K yv (mul K alpha xv))) tt.

  (* src/compat/copy.c:26-61 copy_compat; :64-67 blas_copyf *)
  Definition blas_copyf (n X incx Y incy : Z) : M T unit :=
    let x := vec2 n (Z.abs incx) X in
    let y := vec2 n (Z.abs incy) Y in
    if ((incx >? 0) && (incy >? 0)) || ((incx <? 0) && (incy <? 0)) then _ <- armas_copy y x ;; ret tt
    else walk n incx incy (fun ix iy _ =>
           xv <- armas_get_at_unsafe x ix ;;
           armas_set_at_unsafe y iy xv) tt.

  (* src/compat/dot.c:26-64 dot_compat; :67-70 blas_dotf *)
  Definition blas_dotf (n X incx Y incy : Z) : M T T :=
    let x := vec2 n (Z.abs incx) X in
    let y := vec2 n (Z.abs incy) Y in
    p <- imul incx incy ;;
    if p >? 0 then armas_dot K (e_fuel E) (e_b1 E) (e_opt E) y x
    else walk n incx incy (fun ix iy dval =>
           xv <- armas_get_at_unsafe x ix ;;
           yv <- armas_get_at_unsafe y iy ;;
           ret (add K dval (mul K xv yv))) (zero K).

  (* src/compat/swap.c:26-62 swap_compat; :65-68 blas_swapf *)
  Definition blas_swapf (n X incx Y incy : Z) : M T unit :=
    let x := vec2 n (Z.abs incx) X in
    let y := vec2 n (Z.abs incy) Y in
    p <- imul incx incy ;;
    if p >? 0 then _ <- armas_swap y x ;; ret tt
    else walk n incx incy (fun ix iy _ =>
           yv <- armas_get_at_unsafe y iy ;;
           xv <- armas_get_at_unsafe x ix ;;
           armas_set_at_unsafe y iy xv ;;
           armas_set_at_unsafe x ix yv) tt.

  (* src/compat/rot.c:29-62 rot_compat; :65-69 blas_rotf *)
  Definition blas_rotf (n X incx Y incy : Z) (c s : T) : M T unit :=
    let x := vec2 n (Z.abs incx) X in
    let y := vec2 n (Z.abs incy) Y in
    walk n incx incy (fun ix iy _ =>
      xv <- armas_get_at_unsafe x ix ;;
      yv <- armas_get_at_unsafe y iy ;;
      armas_set_at_unsafe x ix (fst (armas_gvrotate K c s xv yv)) ;;
      armas_set_at_unsafe y iy (snd (armas_gvrotate K c s xv yv))) tt.

  (* src/compat/rot.c:73-77 blas_rotgf: sa, sb, c, s are addresses *)
  Definition blas_rotgf (sa sb c s : Z) : M T unit :=
    a <- rd sa ;;
    b <- rd sb ;;
    let g := armas_gvcompute K a b in
    wr c (fst (fst g)) ;;
    wr s (snd (fst g)).

  (* src/compat/asum.c:32-36, nrm2.c:32-36, iamax.c:32-36, scal.c:32-36: view of the vector of one-vector functions *)
  Definition vec1 (n inc X : Z) : view :=
    if inc =? 1 then armas_make n 1 n X else armas_make 1 n inc X.

  (* src/compat/asum.c:27-38 blas_asumf *)
  Definition blas_asumf (n X incx : Z) : M T T :=
    armas_asum K (e_fuel E) (e_b1 E) (e_opt E) (vec1 n incx X).

  (* src/compat/nrm2.c:27-38 blas_nrm2f *)
  Definition blas_nrm2f (n X incx : Z) : M T T := armas_nrm2 K (vec1 n incx X).

  (* src/compat/iamax.c:27-38 blas_iamaxf *)
  Definition blas_iamaxf (n X incx : Z) : M T Z := armas_iamax K (vec1 n incx X).

  (* src/compat/scal.c:27-39 blas_scalf; the parameter list of the function is (n, X, incx, alpha) *)
  Definition blas_scalf (n X incx : Z) (alpha : T) : M T unit :=
    _ <- armas_scale K (vec1 n incx X) alpha ;; ret tt.
End Compat1.
