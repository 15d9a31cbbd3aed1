(* MTrm.v: model of src/blas/trmv.c and src/blas/trsv.c. *)
From Coq Require Import ZArith Bool.
From Verif Require Import Mem MView MFlags MCopy MNum MBlas1 MElem MBlas2.
Local Open Scope Z_scope.
Local Open Scope prog_scope.

(* flags & (ARMAS_TRANS|ARMAS_UPPER|ARMAS_LOWER), the word the switches look at *)
Definition trm_bits (flags : Z) : Z := Z.land flags (Z.lor ARMAS_TRANS (Z.lor ARMAS_UPPER ARMAS_LOWER)).

Section Trm.
  Context {T : Type}.
  Variable K : num T.
  Local Notation "x +' y" := (add K x y) (at level 50, left associativity).
  Local Notation "x -' y" := (sub K x y) (at level 50, left associativity).
  Local Notation "x *' y" := (mul K x y) (at level 40, left associativity).
  (* recursion depth, env->blas1min and env->blas2min *)
  Variables (fuel : nat) (blas1min blas2min : Z).

  Local Notation subm := armas_submatrix_unsafe.
  Local Notation subv := armas_subvector_unsafe.

  (* ---- trmv.c ---- *)

  (* the body of the loops of trmv_lu, ...: xk is x[i], the dot product is that of
     a0 with the len elements of x from n on.  trmv_lu and trmv_llt call
     armas_dot_unsafe(&a0, &x0), the other two armas_dot_unsafe(&x0, &a0). *)
  Definition trmv_elem (x : view) (alpha : T) (udiag : bool) (i : Z) (xk dot : T) : M T unit :=
    armas_set_at_unsafe x i (alpha *' (if udiag then xk +' dot else dot)).

  (* src/blas/trmv.c:39-58 trmv_lu *)
  Definition trmv_lu (x : view) (alpha : T) (A : view) (flags : Z) : M T unit :=
    let udiag := has flags ARMAS_UNIT in
    let u := if udiag then 1 else 0 in
    for_up 0 (cols A) 1 (fun i =>
      xk <- armas_get_at_unsafe x i ;;
      dot <- armas_dot_unsafe K fuel blas1min (subm A i (i + u) 1 (cols A - i - u)) (subv x (i + u) (cols A - i - u)) ;;
      trmv_elem x alpha udiag i xk dot).

  (* src/blas/trmv.c:71-90 trmv_lut *)
  Definition trmv_lut (x : view) (alpha : T) (A : view) (flags : Z) : M T unit :=
    let udiag := has flags ARMAS_UNIT in
    let u := if udiag then 1 else 0 in
    for_down (cols A - 1) 0 (fun i =>
      xk <- armas_get_at (zero K) x i ;;
      dot <- armas_dot_unsafe K fuel blas1min (subv x 0 (i - u + 1)) (subm A 0 i (i - u + 1) 1) ;;
      trmv_elem x alpha udiag i xk dot).

  (* src/blas/trmv.c:103-122 trmv_ll *)
  Definition trmv_ll (x : view) (alpha : T) (A : view) (flags : Z) : M T unit :=
    let udiag := has flags ARMAS_UNIT in
    let u := if udiag then 1 else 0 in
    for_down (cols A - 1) 0 (fun i =>
      xk <- armas_get_at (zero K) x i ;;
      dot <- armas_dot_unsafe K fuel blas1min (subv x 0 (i - u + 1)) (subm A i 0 1 (i - u + 1)) ;;
      trmv_elem x alpha udiag i xk dot).

  (* src/blas/trmv.c:135-154 trmv_llt *)
  Definition trmv_llt (x : view) (alpha : T) (A : view) (flags : Z) : M T unit :=
    let udiag := has flags ARMAS_UNIT in
    let u := if udiag then 1 else 0 in
    for_up 0 (cols A) 1 (fun i =>
      xk <- armas_get_at_unsafe x i ;;
      dot <- armas_dot_unsafe K fuel blas1min (subm A (i + u) i (cols A - i - u) 1) (subv x (i + u) (cols A - i - u)) ;;
      trmv_elem x alpha udiag i xk dot).

  (* src/blas/trmv.c:156-179 trmv_unb *)
  Definition trmv_unb (X : view) (alpha : T) (A : view) (flags : Z) : M T unit :=
    let s := trm_bits flags in
    if s =? Z.lor ARMAS_UPPER ARMAS_TRANS then trmv_lut X alpha A flags
    else if s =? ARMAS_UPPER then trmv_lu X alpha A flags
    else if s =? Z.lor ARMAS_LOWER ARMAS_TRANS then trmv_llt X alpha A flags
    else trmv_ll X alpha A flags.

  (* src/blas/trmv.c:190-222 trmv_forward_recursive *)
  Fixpoint trmv_forward_recursive (f : nat) (X : view) (alpha : T) (A : view) (flags minsz : Z) : M T unit :=
    match f with
    | O => fail
    | S f =>
      if cols A <? minsz then trmv_unb X alpha A flags
      else
        let b := mat_partition_2x2 A (Z.quot (rows A) 2) (Z.quot (rows A) 2) PTop in
        let '(xT, xB) := vec_partition_2x1 X (Z.quot (rows A) 2) PTop in
        trmv_forward_recursive f xT alpha (ATL b) flags minsz ;;
        (if has flags ARMAS_UPPER
         then armas_mvmult_unsafe K fuel blas2min (one K) xT alpha (ATR b) xB 0
         else armas_mvmult_unsafe K fuel blas2min (one K) xT alpha (ABL b) xB ARMAS_TRANS) ;;
        trmv_forward_recursive f xB alpha (ABR b) flags minsz
    end.

  (* src/blas/trmv.c:233-265 trmv_backward_recursive *)
  Fixpoint trmv_backward_recursive (f : nat) (X : view) (alpha : T) (A : view) (flags minsz : Z) : M T unit :=
    match f with
    | O => fail
    | S f =>
      if cols A <? minsz then trmv_unb X alpha A flags
      else
        let b := mat_partition_2x2 A (Z.quot (rows A) 2) (Z.quot (rows A) 2) PTop in
        let '(xT, xB) := vec_partition_2x1 X (Z.quot (rows A) 2) PTop in
        trmv_backward_recursive f xB alpha (ABR b) flags minsz ;;
        (if has flags ARMAS_UPPER
         then armas_mvmult_unsafe K fuel blas2min (one K) xB alpha (ATR b) xT ARMAS_TRANS
         else armas_mvmult_unsafe K fuel blas2min (one K) xB alpha (ABL b) xT 0) ;;
        trmv_backward_recursive f xT alpha (ATL b) flags minsz
    end.

  (* the switch of trmv.c:280-291 and 347-357 *)
  Definition trmv_switch (X : view) (alpha : T) (A : view) (flags : Z) : M T unit :=
    let s := trm_bits flags in
    if (s =? Z.lor ARMAS_LOWER ARMAS_TRANS) || (s =? ARMAS_UPPER)
    then trmv_forward_recursive fuel X alpha A flags blas2min
    else trmv_backward_recursive fuel X alpha A flags blas2min.

  (* src/blas/trmv.c:268-293 armas_mvmult_trm_unsafe *)
  Definition armas_mvmult_trm_unsafe (X : view) (alpha : T) (A : view) (flags : Z) : M T unit :=
    if (cols A <? blas2min) || (blas2min =? 0) then trmv_unb X alpha A flags
    else trmv_switch X alpha A flags.

  (* src/blas/trmv.c:317-361 armas_mvmult_trm; conf->optflags is an argument *)
  Definition armas_mvmult_trm (optflags : Z) (x : view) (alpha : T) (A : view) (flags : Z) : M T Z :=
    let nx := armas_size x in
    if (armas_size A =? 0) || (nx =? 0) then ret 0
    else if negb (armas_isvector x) then ret (- ARMAS_ENEED_VECTOR)
    else if negb (cols A =? nx) || negb (rows A =? cols A) then ret (- ARMAS_ESIZE)
    else
      (if has optflags ARMAS_ONAIVE || (blas2min =? 0) then trmv_unb x alpha A flags
       else trmv_switch x alpha A flags) ;;
      ret 0.

  (* ---- trsv.c ---- *)

  (* the first element: xk = alpha*x[i]; if (!unit) xk /= A[i,i]; x[i] = xk *)
  Definition trsv_first (x : view) (alpha : T) (A : view) (udiag : bool) (i : Z) : M T unit :=
    x0 <- armas_get_at_unsafe x i ;;
    let xk := alpha *' x0 in
    xk <- (if udiag then ret xk else d <- armas_get_unsafe A i i ;; ret (div K xk d)) ;;
    armas_set_at_unsafe x i xk.

  (* the loop body; a0 is the part of A, x0 the part of x in the dot product *)
  Definition trsv_elem (x : view) (alpha : T) (A : view) (udiag : bool) (i : Z) (a0 x0 : view) : M T unit :=
    xk <- armas_get_at_unsafe x i ;;
    dot <- armas_dot_unsafe K fuel blas1min a0 x0 ;;
    let xk := alpha *' xk -' dot in
    xk <- (if udiag then ret xk else d <- armas_get_unsafe A i i ;; ret (div K xk d)) ;;
    armas_set_at_unsafe x i xk.

  (* src/blas/trsv.c:42-68 trsv_lu *)
  Definition trsv_lu (x : view) (alpha : T) (A : view) (flags : Z) : M T unit :=
    let udiag := has flags ARMAS_UNIT in
    trsv_first x alpha A udiag (cols A - 1) ;;
    for_down (cols A - 2) 0 (fun i =>
      trsv_elem x alpha A udiag i (subm A i (i + 1) 1 (cols A - 1 - i)) (subv x (i + 1) (cols A - 1 - i))).

  (* src/blas/trsv.c:81-108 trsv_lut *)
  Definition trsv_lut (x : view) (alpha : T) (A : view) (flags : Z) : M T unit :=
    let udiag := has flags ARMAS_UNIT in
    trsv_first x alpha A udiag 0 ;;
    for_up 1 (cols A) 1 (fun i => trsv_elem x alpha A udiag i (subm A 0 i i 1) (subv x 0 i)).

  (* src/blas/trsv.c:121-148 trsv_ll *)
  Definition trsv_ll (x : view) (alpha : T) (A : view) (flags : Z) : M T unit :=
    let udiag := has flags ARMAS_UNIT in
    trsv_first x alpha A udiag 0 ;;
    for_up 1 (cols A) 1 (fun i => trsv_elem x alpha A udiag i (subm A i 0 1 i) (subv x 0 i)).

  (* src/blas/trsv.c:161-189 trsv_llt *)
  Definition trsv_llt (x : view) (alpha : T) (A : view) (flags : Z) : M T unit :=
    let udiag := has flags ARMAS_UNIT in
    trsv_first x alpha A udiag (cols A - 1) ;;
    for_down (cols A - 2) 0 (fun i =>
      trsv_elem x alpha A udiag i (subm A (i + 1) i (cols A - 1 - i) 1) (subv x (i + 1) (cols A - 1 - i))).

  (* src/blas/trsv.c:191-214 trsv_unb *)
  Definition trsv_unb (X : view) (alpha : T) (A : view) (flags : Z) : M T unit :=
    let s := trm_bits flags in
    if s =? Z.lor ARMAS_UPPER ARMAS_TRANS then trsv_lut X alpha A flags
    else if s =? ARMAS_UPPER then trsv_lu X alpha A flags
    else if s =? Z.lor ARMAS_LOWER ARMAS_TRANS then trsv_llt X alpha A flags
    else trsv_ll X alpha A flags.

  (* src/blas/trsv.c:232-264 trsv_forward_recursive *)
  Fixpoint trsv_forward_recursive (f : nat) (X : view) (alpha : T) (A : view) (flags minsz : Z) : M T unit :=
    match f with
    | O => fail
    | S f =>
      if cols A <? minsz then trsv_unb X alpha A flags
      else
        let b := mat_partition_2x2 A (Z.quot (rows A) 2) (Z.quot (rows A) 2) PTop in
        let '(xT, xB) := vec_partition_2x1 X (Z.quot (rows A) 2) PTop in
        trsv_forward_recursive f xT alpha (ATL b) flags minsz ;;
        (if has flags ARMAS_UPPER
         then armas_mvmult_unsafe K fuel blas2min alpha xB (opp K (one K)) (ATR b) xT ARMAS_TRANS
         else armas_mvmult_unsafe K fuel blas2min alpha xB (opp K (one K)) (ABL b) xT 0) ;;
        trsv_forward_recursive f xB (one K) (ABR b) flags minsz
    end.

  (* src/blas/trsv.c:282-315 trsv_backward_recursive *)
  Fixpoint trsv_backward_recursive (f : nat) (X : view) (alpha : T) (A : view) (flags minsz : Z) : M T unit :=
    match f with
    | O => fail
    | S f =>
      if cols A <? minsz then trsv_unb X alpha A flags
      else
        let b := mat_partition_2x2 A (Z.quot (rows A) 2) (Z.quot (rows A) 2) PTop in
        let '(xT, xB) := vec_partition_2x1 X (Z.quot (rows A) 2) PTop in
        trsv_backward_recursive f xB alpha (ABR b) flags minsz ;;
        (if has flags ARMAS_UPPER
         then armas_mvmult_unsafe K fuel blas2min alpha xT (opp K (one K)) (ATR b) xB 0
         else armas_mvmult_unsafe K fuel blas2min alpha xT (opp K (one K)) (ABL b) xB ARMAS_TRANS) ;;
        trsv_backward_recursive f xT (one K) (ATL b) flags minsz
    end.

  (* the switch of trsv.c:330-341 and 396-406 *)
  Definition trsv_switch (X : view) (alpha : T) (A : view) (flags : Z) : M T unit :=
    let s := trm_bits flags in
    if (s =? Z.lor ARMAS_LOWER ARMAS_TRANS) || (s =? ARMAS_UPPER)
    then trsv_backward_recursive fuel X alpha A flags blas2min
    else trsv_forward_recursive fuel X alpha A flags blas2min.

  (* src/blas/trsv.c:317-342 armas_mvsolve_trm_unsafe *)
  Definition armas_mvsolve_trm_unsafe (X : view) (alpha : T) (A : view) (flags : Z) : M T unit :=
    if (cols A <? blas2min) || (blas2min =? 0) then trsv_unb X alpha A flags
    else trsv_switch X alpha A flags.

  (* src/blas/trsv.c:366-408 armas_mvsolve_trm *)
  Definition armas_mvsolve_trm (optflags : Z) (x : view) (alpha : T) (A : view) (flags : Z) : M T Z :=
    let nx := armas_size x in
    if (armas_size A =? 0) || (nx =? 0) then ret 0
    else if negb (armas_isvector x) then ret (- ARMAS_ENEED_VECTOR)
    else if negb (cols A =? nx) || negb (rows A =? cols A) then ret (- ARMAS_ESIZE)
    else
      (if has optflags ARMAS_ONAIVE || (blas2min =? 0) then trsv_unb x alpha A flags
       else trsv_switch x alpha A flags) ;;
      ret 0.
End Trm.
