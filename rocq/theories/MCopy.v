(* MCopy.v: model of the copy functions of src/include/matcpy.h, of
   src/blas/mcopy.c and of src/blas/swap.c. *)
From Coq Require Import ZArith Bool.
From Verif Require Import Mem MView MFlags.
Local Open Scope Z_scope.
Local Open Scope prog_scope.

(* the local variable xinc of all vector functions, for example
   src/blas/mcopy.c:35-36:  X->rows == 1 ? X->step : 1 *)
Definition vinc (x : view) : Z := if rows x =? 1 then step x else 1.

Section Copy.
  Context {T : Type}.
  Implicit Types (d s : Z).

  (* *dp = *sp; *)
  Definition cp1 (dp sp : Z) : M T unit := x <- rd sp ;; wr dp x.

  (* src/include/matcpy.h:15-21 copy_plain_mcpy1; memcpy is modelled as a loop
     over the nR elements of a column *)
  Definition copy_plain_mcpy1 d ldD s ldS (nR nC : Z) : M T unit :=
    for_up 0 nC 1 (fun j =>
      for_up 0 nR 1 (fun i => cp1 (d + j * ldD + i) (s + j * ldS + i))).

  (* src/include/matcpy.h:43-66 copy_trans1x4 *)
  Definition copy_trans1x4 d ldD s ldS (nR nC : Z) : M T unit :=
    for_up 0 nC 1 (fun j =>
      unroll4 nR
        (fun i =>
           cp1 (d + ((j + 0) + (i + 0) * ldD)) (s + ((i + 0) + (j + 0) * ldS)) ;;
           cp1 (d + ((j + 0) + (i + 1) * ldD)) (s + ((i + 1) + (j + 0) * ldS)) ;;
           cp1 (d + ((j + 0) + (i + 2) * ldD)) (s + ((i + 2) + (j + 0) * ldS)) ;;
           cp1 (d + ((j + 0) + (i + 3) * ldD)) (s + ((i + 3) + (j + 0) * ldS)))
        (fun i => cp1 (d + (j + i * ldD)) (s + (i + j * ldS)))).

  (* src/include/matcpy.h:69-83 copy_trans4x1 *)
  Definition copy_trans4x1 d ldD s ldS (nR nC : Z) : M T unit :=
    for_up 0 (nC - 3) 4 (fun j =>
      for_up 0 nR 1 (fun i =>
        cp1 (d + ((j + 0) + (i + 0) * ldD)) (s + (i + (j + 0) * ldS)) ;;
        cp1 (d + ((j + 1) + (i + 0) * ldD)) (s + (i + (j + 1) * ldS)) ;;
        cp1 (d + ((j + 2) + (i + 0) * ldD)) (s + (i + (j + 2) * ldS)) ;;
        cp1 (d + ((j + 3) + (i + 0) * ldD)) (s + (i + (j + 3) * ldS)))) ;;
    let j := loop_end 0 (nC - 3) 4 in
    when (negb (j =? nC))
      (copy_trans1x4 (d + j) ldD (s + j * ldS) ldS nR (nC - j)).

  (* src/blas/mcopy.c:32-64 vector_copy; the running indices kx, ky of the
     remainder switch are written as i*xinc, i*yinc *)
  Definition vector_copy (X Y : view) (N : Z) : M T unit :=
    unroll4 N
      (fun i =>
         f0 <- rd (elems Y + (i + 0) * vinc Y) ;;
         f1 <- rd (elems Y + (i + 1) * vinc Y) ;;
         f2 <- rd (elems Y + (i + 2) * vinc Y) ;;
         f3 <- rd (elems Y + (i + 3) * vinc Y) ;;
         wr (elems X + (i + 0) * vinc X) f0 ;;
         wr (elems X + (i + 1) * vinc X) f1 ;;
         wr (elems X + (i + 2) * vinc X) f2 ;;
         wr (elems X + (i + 3) * vinc X) f3)
      (fun i => cp1 (elems X + i * vinc X) (elems Y + i * vinc Y)).

  (* src/blas/mcopy.c:78-95 armas_copy *)
  Definition armas_copy (Y X : view) : M T Z :=
    if (armas_size X =? 0) || (armas_size Y =? 0) then ret 0
    else if negb (armas_isvector X && armas_isvector Y) then ret (- ARMAS_ENEED_VECTOR)
    else
      let N := if armas_size X <? armas_size Y then armas_size X else armas_size Y in
      vector_copy Y X N ;; ret 0.

  (* src/blas/mcopy.c:117-152 armas_mcopy; CPTRANS and CP are copy_trans4x1 and
     copy_plain_mcpy1 (src/include/matcpy.h:339-348, real element types) *)
  Definition armas_mcopy (A B : view) (flags : Z) : M T Z :=
    if armas_isvector A && armas_isvector B then
      if negb (armas_size A =? armas_size B) then ret (- ARMAS_ESIZE)
      else vector_copy A B (armas_size A) ;; ret 0
    else
      let ok := if Z.land flags ARMAS_TRANS =? ARMAS_TRANS
                then (rows A =? cols B) && (cols A =? rows B)
                else (rows A =? rows B) && (cols A =? cols B) in
      if negb ok then ret (- ARMAS_ESIZE)
      else if has flags ARMAS_TRANS then
        copy_trans4x1 (elems A) (step A) (elems B) (step B) (rows B) (cols B) ;; ret 0
      else
        copy_plain_mcpy1 (elems A) (step A) (elems B) (step B) (rows B) (cols B) ;; ret 0.

  (* src/blas/swap.c:30-78 vec_swap.  The temporaries have type double whatever
     the element type is; no conversion is modelled. *)
  Definition vec_swap (X Y : view) (N : Z) : M T unit :=
    unroll4 N
      (fun i =>
         y0 <- rd (elems Y + (i + 0) * vinc Y) ;;
         y1 <- rd (elems Y + (i + 1) * vinc Y) ;;
         y2 <- rd (elems Y + (i + 2) * vinc Y) ;;
         y3 <- rd (elems Y + (i + 3) * vinc Y) ;;
         x0 <- rd (elems X + (i + 0) * vinc X) ;;
         x1 <- rd (elems X + (i + 1) * vinc X) ;;
         x2 <- rd (elems X + (i + 2) * vinc X) ;;
         x3 <- rd (elems X + (i + 3) * vinc X) ;;
         wr (elems X + (i + 0) * vinc X) y0 ;;
         wr (elems X + (i + 1) * vinc X) y1 ;;
         wr (elems X + (i + 2) * vinc X) y2 ;;
         wr (elems X + (i + 3) * vinc X) y3 ;;
         wr (elems Y + (i + 0) * vinc Y) x0 ;;
         wr (elems Y + (i + 1) * vinc Y) x1 ;;
         wr (elems Y + (i + 2) * vinc Y) x2 ;;
         wr (elems Y + (i + 3) * vinc Y) x3)
      (fun i =>
         y0 <- rd (elems Y + i * vinc Y) ;;
         x0 <- rd (elems X + i * vinc X) ;;
         wr (elems Y + i * vinc Y) x0 ;;
         wr (elems X + i * vinc X) y0).

  (* src/blas/swap.c:91-115 armas_swap *)
  Definition armas_swap (Y X : view) : M T Z :=
    if negb (cols X =? 1) && negb (rows X =? 1) then ret (- ARMAS_ENEED_VECTOR)
    else if negb (cols Y =? 1) && negb (rows Y =? 1) then ret (- ARMAS_ENEED_VECTOR)
    else if negb (armas_size X =? armas_size Y) then ret (- ARMAS_ESIZE)
    else if (armas_size X =? 0) || (armas_size Y =? 0) then ret 0
    else vec_swap Y X (armas_size Y) ;; ret 0.
End Copy.
