(* MElem.v: model of the element-wise matrix functions mscale.c, madd.c,
   mplus.c, mset.c and mapply.c of src/blas and of blk_scale in matcpy.h. *)
From Coq Require Import ZArith Bool.
From Verif Require Import Mem MView MFlags MCopy MNum MBlas1.
Local Open Scope Z_scope.
Local Open Scope prog_scope.

Section Elem.
  Context {T : Type}.
  Variable K : num T.
  Local Notation "x +' y" := (add K x y) (at level 50, left associativity).
  Local Notation "x *' y" := (mul K x y) (at level 40, left associativity).

  (* src/include/matcpy.h:405-452 blk_scale; the body  X[..] = 0.0  or
     X[..] *= beta  is the parameter e *)
  Definition blk_loop (e : Z -> M T unit) (X ldX nrows ncols : Z) : M T unit :=
    unroll4c ncols
      (fun j => for_up 0 nrows 1 (fun i =>
         e (X + (i + (j + 0) * ldX)) ;;
         e (X + (i + (j + 1) * ldX)) ;;
         e (X + (i + (j + 2) * ldX)) ;;
         e (X + (i + (j + 3) * ldX))))
      (fun j => for_up 0 nrows 1 (fun i => e (X + (i + (j + 0) * ldX)))).

  Definition blk_scale (x : view) (beta : T) (nrows ncols : Z) : M T unit :=
    if eqb K beta (one K) then ret tt
    else if eqb K beta (zero K) then
      blk_loop (fun p => wr p (zero K)) (elems x) (step x) nrows ncols
    else
      blk_loop (fun p => modify p (fun v => v *' beta)) (elems x) (step x) nrows ncols.

  (* src/blas/mscale.c:63-71 armas_scale_unsafe *)
  Definition armas_scale_unsafe (x : view) (alpha : T) : M T unit :=
    if armas_isvector x then vec_scale K x alpha (armas_size x)
    else blk_scale x alpha (rows x) (cols x).

  (* src/blas/mscale.c:126-166 armas_mscale *)
  Definition armas_mscale (m : view) (alpha : T) (flags : Z) : M T Z :=
    let sel := Z.land flags (ARMAS_SYMM + ARMAS_UPPER + ARMAS_LOWER) in
    let n := if has flags ARMAS_UNIT then 1 else 0 in
    if sel =? ARMAS_UPPER then
      for_up n (rows m) 1 (fun c =>
        let C := armas_submatrix_unsafe m c (c + n) 1 (rows m - c - n) in
        vec_scale K C alpha (rows C)) ;; ret 0
    else if sel =? ARMAS_LOWER then
      for_up 0 (cols m - n) 1 (fun c =>
        let C := armas_submatrix_unsafe m (c + n) c (rows m - c - n) 1 in
        vec_scale K C alpha (rows C)) ;; ret 0
    else if (sel =? ARMAS_SYMM) && negb (rows m =? cols m) then ret (-1)
    else armas_scale_unsafe m alpha ;; ret 0.

  (* src/blas/madd.c:69-117 armas_madd *)
  Definition armas_madd (A : view) (alpha : T) (flags : Z) : M T Z :=
    if armas_isvector A then vec_add K A alpha (armas_size A) ;; ret 0
    else
    let sel := Z.land flags (ARMAS_SYMM + ARMAS_UPPER + ARMAS_LOWER) in
    let n := if has flags ARMAS_UNIT then 1 else 0 in
    if sel =? ARMAS_UPPER then
      for_up n (cols A) 1 (fun c =>
        let C := armas_submatrix_unsafe A 0 (c + n) (c + 1 - n) 1 in
        vec_add K C alpha (rows C)) ;; ret 0
    else if sel =? ARMAS_LOWER then
      for_up 0 (cols A - n) 1 (fun c =>
        let C := armas_submatrix_unsafe A (c + n) c (rows A - c - n) 1 in
        vec_add K C alpha (rows C)) ;; ret 0
    else if (sel =? ARMAS_SYMM) && negb (rows A =? cols A) then ret (- ARMAS_ESIZE)
    else
      for_up 0 (cols A) 1 (fun c =>
        let C := armas_submatrix_unsafe A 0 c (rows A) 1 in
        vec_add K C alpha (rows C)) ;; ret 0.

  (* one element:  a[p] = alpha*g(a[p]) + beta*g(b[q]);
     g is the identity or ABS in the functions with suffix _abs *)
  Definition plus1 (g : T -> T) (alpha beta : T) (p q : Z) : M T unit :=
    x <- rd p ;; y <- rd q ;; wr p (alpha *' g x +' beta *' g y).

  (* src/blas/mplus.c:28-60 madd_lower (g = identity), 62-94 madd_lower_abs (g = ABS);
     the two conditions of the loop on i are written as a minimum *)
  Definition madd_lower (g : T -> T) (alpha : T) (A : view) (beta : T) (B : view) (nR nC : Z) : M T unit :=
    let a := elems A in let b := elems B in let lda := step A in let ldb := step B in
    let e := fun i k => plus1 g alpha beta (a + (i + k * lda)) (b + (i + k * ldb)) in
    unroll4c nC
      (fun j =>
         for_up j (j + 3) 1 (fun k => for_up k (Z.min (j + 3) nR) 1 (fun i => e i k)) ;;
         for_up (j + 3) nR 1 (fun i => e i (j + 0) ;; e i (j + 1) ;; e i (j + 2) ;; e i (j + 3)))
      (fun j => for_up j nR 1 (fun i => e i (j + 0))).

  (* src/blas/mplus.c:96-128 madd_upper, 130-162 madd_upper_abs *)
  Definition madd_upper (g : T -> T) (alpha : T) (A : view) (beta : T) (B : view) (nR nC : Z) : M T unit :=
    let a := elems A in let b := elems B in let lda := step A in let ldb := step B in
    let e := fun i k => plus1 g alpha beta (a + (i + k * lda)) (b + (i + k * ldb)) in
    unroll4c nC
      (fun j =>
         for_up 0 (Z.min (j + 1) nR) 1 (fun i => e i (j + 0) ;; e i (j + 1) ;; e i (j + 2) ;; e i (j + 3)) ;;
         for_up (j + 1) (Z.min (j + 4) nR) 1 (fun i => for_up i (j + 4) 1 (fun k => e i k)))
      (fun j => for_up 0 (Z.min (j + 1) nR) 1 (fun i => e i (j + 0))).

  (* src/blas/mplus.c:165-211 madd, 213-259 madd_abs *)
  Definition madd (g : T -> T) (alpha : T) (A : view) (beta : T) (B : view) (nR nC flags : Z) : M T unit :=
    let a := elems A in let b := elems B in let lda := step A in let ldb := step B in
    let e := if has flags (ARMAS_TRANS + ARMAS_TRANSB)
             then fun i j => plus1 g alpha beta (a + (i + j * lda)) (b + (j + i * ldb))
             else fun i j => plus1 g alpha beta (a + (i + j * lda)) (b + (i + j * ldb)) in
    unroll4c nC
      (fun j => for_up 0 nR 1 (fun i => e i (j + 0) ;; e i (j + 1) ;; e i (j + 2) ;; e i (j + 3)))
      (fun j => for_up 0 nR 1 (fun i => e i (j + 0))).

  (* src/blas/mplus.c:286-342 armas_mplus *)
  Definition armas_mplus (alpha : T) (A : view) (beta : T) (B : view) (flags : Z) : M T Z :=
    if (armas_size A =? 0) || (armas_size B =? 0) then ret 0
    else if armas_size B =? 1 then
      b <- armas_get_unsafe B 0 0 ;; armas_madd A (beta *' b) flags
    else if armas_isvector A && armas_isvector B then armas_axpby K alpha A beta B
    else if (if has flags (ARMAS_TRANS + ARMAS_TRANSB)
             then negb (rows A =? cols B) || negb (cols A =? rows B)
             else negb (rows A =? rows B) || negb (cols A =? cols B)) then ret (- ARMAS_ESIZE)
    else
      let g := if has flags ARMAS_ABSA then abs K else fun x => x in
      let sel := Z.land flags (ARMAS_LOWER + ARMAS_UPPER) in
      (if sel =? ARMAS_LOWER then madd_lower g alpha A beta B (rows A) (cols A)
       else if sel =? ARMAS_UPPER then madd_upper g alpha A beta B (rows A) (cols A)
       else madd g alpha A beta B (rows A) (cols A) flags) ;; ret 0.

  (* src/blas/mset.c:53-95 armas_set_values; value is a function of the indices *)
  Definition armas_set_values (A : view) (value : Z -> Z -> T) (flags : Z) : M T Z :=
    let sel := Z.land flags (ARMAS_UPPER + ARMAS_LOWER + ARMAS_SYMM) in
    let unit := has flags ARMAS_UNIT in
    if sel =? ARMAS_UPPER then
      for_up 0 (cols A) 1 (fun j =>
        for_up 0 (Z.min j (rows A)) 1 (fun i => armas_set_unsafe A i j (value i j)) ;;
        when ((j <? rows A) && negb unit) (armas_set_unsafe A j j (value j j))) ;; ret 0
    else if sel =? ARMAS_LOWER then
      for_up 0 (cols A) 1 (fun j =>
        when ((j <? rows A) && negb unit) (armas_set_unsafe A j j (value j j)) ;;
        for_up (j + 1) (rows A) 1 (fun i => armas_set_unsafe A i j (value i j))) ;; ret 0
    else if sel =? ARMAS_SYMM then
      if negb (rows A =? cols A) then ret (-1)
      else
        for_up 0 (cols A) 1 (fun j =>
          wr (elems A + (j * step A + j)) (if unit then one K else value j j) ;;
          for_up (j + 1) (rows A) 1 (fun i =>
            armas_set_unsafe A i j (value i j) ;;
            v <- armas_get_unsafe A i j ;; armas_set_unsafe A j i v)) ;; ret 0
    else
      for_up 0 (cols A) 1 (fun j =>
        for_up 0 (rows A) 1 (fun i => armas_set_unsafe A i j (value i j))) ;; ret 0.

  (* src/blas/mset.c:173-196 armas_make_trm *)
  Definition armas_make_trm (A : view) (flags : Z) : M T unit :=
    if has flags ARMAS_UPPER then
      for_up 0 (cols A) 1 (fun j =>
        when (has flags ARMAS_UNIT) (armas_set_unsafe A j j (one K)) ;;
        for_up (j + 1) (rows A) 1 (fun i => armas_set_unsafe A i j (zero K)))
    else if has flags ARMAS_LOWER then
      for_up 0 (cols A) 1 (fun j =>
        for_up 0 (Z.min (rows A) j) 1 (fun i => armas_set_unsafe A i j (zero K)) ;;
        when (has flags ARMAS_UNIT && (j <? rows A)) (armas_set_unsafe A j j (one K)))
    else ret tt.

  (* src/blas/mapply.c:42-73 armas_apply; armas_apply2 (94-125) is the same
     with oper applied to a second constant argument *)
  Definition armas_apply (A : view) (oper : T -> T) (flags : Z) : M T Z :=
    if armas_size A =? 0 then ret 0
    else
      let e := fun i j => v <- armas_get_unsafe A i j ;; armas_set_unsafe A i j (oper v) in
      let sel := Z.land flags (ARMAS_LOWER + ARMAS_UPPER) in
      if sel =? ARMAS_LOWER then
        for_up 0 (cols A) 1 (fun j => for_up j (rows A) 1 (fun i => e i j)) ;; ret 0
      else if sel =? ARMAS_UPPER then
        for_up 0 (cols A) 1 (fun j => for_up 0 (j + 1) 1 (fun i => e i j)) ;; ret 0
      else
        for_up 0 (cols A) 1 (fun j => for_up 0 (rows A) 1 (fun i => e i j)) ;; ret 0.

  Definition armas_apply2 {P} (A : view) (oper : T -> P -> T) (p : P) (flags : Z) : M T Z :=
    armas_apply A (fun x => oper x p) flags.

  (* src/blas/mapply.c:145-179 armas_iterate; *p is the state st, returned with
     the result.  A negative result of oper stops the iteration. *)
  Definition armas_iterate {S} (A : view) (oper : T -> S -> Z * S) (p : S) (flags : Z) : M T (Z * S) :=
    if armas_size A =? 0 then ret (0, p)
    else
      let e := fun i j (r : Z * S) =>
        if fst r <? 0 then ret r      (* stopped: return -1 *)
        else
          v <- armas_get_unsafe A i j ;;
          let '(rc, st) := oper v (snd r) in
          ret (if rc <? 0 then -1 else 0, st) in
      let sel := Z.land flags (ARMAS_LOWER + ARMAS_UPPER) in
      if sel =? ARMAS_LOWER then
        for_acc 0 (cols A) 1 (fun j => for_acc j (rows A) 1 (fun i => e i j)) (0, p)
      else if sel =? ARMAS_UPPER then
        for_acc 0 (cols A) 1 (fun j => for_acc 0 (j + 1) 1 (fun i => e i j)) (0, p)
      else
        for_acc 0 (cols A) 1 (fun j => for_acc 0 (rows A) 1 (fun i => e i j)) (0, p).

  (* src/blas/mset.c:114-156 armas_set_all; the k-th call of the generator
     returns gen k, the number of calls is returned with the result *)
  Definition armas_set_all (A : view) (gen : Z -> T) (flags : Z) : M T (Z * Z) :=
    let sel := Z.land flags (ARMAS_UPPER + ARMAS_LOWER + ARMAS_SYMM) in
    let unit := has flags ARMAS_UNIT in
    let e := fun i j k => armas_set_unsafe A i j (gen k) ;; ret (k + 1) in
    if sel =? ARMAS_UPPER then
      k <- for_acc 0 (cols A) 1 (fun j k =>
        k <- for_acc 0 (Z.min j (rows A)) 1 (fun i => e i j) k ;;
        if (j <? rows A) && negb unit then e j j k else ret k) 0 ;; ret (0, k)
    else if sel =? ARMAS_LOWER then
      k <- for_acc 0 (cols A) 1 (fun j k =>
        k <- (if (j <? rows A) && negb unit then e j j k else ret k) ;;
        for_acc (j + 1) (rows A) 1 (fun i => e i j) k) 0 ;; ret (0, k)
    else if sel =? ARMAS_SYMM then
      if negb (rows A =? cols A) then ret (-1, 0)
      else
        k <- for_acc 0 (cols A) 1 (fun j k =>
          k <- (if unit then wr (elems A + (j * step A + j)) (one K) ;; ret k
                else wr (elems A + (j * step A + j)) (gen k) ;; ret (k + 1)) ;;
          for_acc (j + 1) (rows A) 1 (fun i k =>
            armas_set_unsafe A i j (gen k) ;;
            v <- armas_get_unsafe A i j ;; armas_set_unsafe A j i v ;; ret (k + 1)) k) 0 ;; ret (0, k)
    else
      k <- for_acc 0 (cols A) 1 (fun j => for_acc 0 (rows A) 1 (fun i => e i j)) 0 ;; ret (0, k).
End Elem.
