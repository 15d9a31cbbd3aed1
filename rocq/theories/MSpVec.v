(* MSpVec.v: model of the operations of a compressed sparse matrix with dense
   vectors, src/sparse/{gemv,symv,trsv,trmv,diag}.c, of armassp_hasdiag in
   src/sparse/util.c and of armassp_nz in src/include/sparse.h.

   The C code takes the element pointer of the dense vector (armas_data) and
   indexes it directly, so x[i] is the cell  elems x + i  of the memory whatever
   the shape of x is.  Loops that search for an index without a bound on the
   position read the index array until the array ends, which is undefined
   behaviour; the fuel of those loops is therefore the length of the array. *)
From Coq Require Import ZArith List Bool Lia.
From Verif Require Import Mem MView MNum MFlags MSparse.
Import ListNotations.
Local Open Scope Z_scope.
Local Open Scope prog_scope.

Section SpVec.
  Context {T : Type} (K : num T).
  Local Notation "x +' y" := (add K x y) (at level 50, left associativity).
  Local Notation "x -' y" := (sub K x y) (at level 50, left associativity).
  Local Notation "x *' y" := (mul K x y) (at level 40, left associativity).

  (* src/include/sparse.h:202-209,232-235,277-280: A->ptr[j], A->ix[p], A->elems.v[p] *)
  Definition pt (A : sparse T) (j : Z) : M T Z := aread (sp_ptr A) j.
  Definition at_ (A : sparse T) (p : Z) : M T Z := aread (sp_ix A) p.
  Definition el (A : sparse T) (p : Z) : M T T := aread (sp_v A) p.

  (* x[i] += v;  and  x[i] -= v; *)
  Definition addto (a : Z) (v : T) : M T unit := x <- rd a ;; wr a (x +' v).
  Definition subfrom (a : Z) (v : T) : M T unit := x <- rd a ;; wr a (x -' v).

  (* enough rounds for any loop that reads the index array once a round *)
  Definition rounds (A : sparse T) : nat := S (S (Z.to_nat (alen (sp_ix A)))).

  (* for (k = k0; A->ix[k] < j; k++);   without a bound on k *)
  Definition skip_below (A : sparse T) (k0 j : Z) : M T Z :=
    while_do (rounds A) (fun k => i <- at_ A k ;; ret (i <? j)) (fun k => ret (k + 1)) k0.

  (* for (k = k0; A->ix[k] > j; k--);   without a bound on k *)
  Definition skip_above (A : sparse T) (k0 j : Z) : M T Z :=
    while_do (rounds A) (fun k => i <- at_ A k ;; ret (j <? i)) (fun k => ret (k - 1)) k0.

  (* ------------------------------------------------------------ gemv.c *)

  (* gemv.c:34-35,73-74  for (i = 0; i < n; i++) y[i] *= beta; *)
  Definition sp_scale (n y : Z) (beta : T) : M T unit :=
    for_up 0 n 1 (fun i => v <- rd (y + i) ;; wr (y + i) (v *' beta)).

  (* gemv.c:38-43,77-82: y[ix[k]] += (alpha*x[j])*Ae[k] over all lines j *)
  Definition sp_scatter (n y : Z) (alpha : T) (A : sparse T) (x : Z) : M T unit :=
    for_up 0 n 1 (fun j =>
      xj <- rd (x + j) ;;
      let ax := alpha *' xj in
      p0 <- pt A j ;; p1 <- pt A (j + 1) ;;
      for_up p0 p1 1 (fun k => i <- at_ A k ;; e <- el A k ;; addto (y + i) (ax *' e))).

  (* gemv.c:46-52,64-70: y[j] = beta*y[j] + alpha * sum Ae[k]*x[ix[k]] *)
  Definition sp_gather (n : Z) (beta : T) (y : Z) (alpha : T) (A : sparse T) (x : Z) : M T unit :=
    for_up 0 n 1 (fun j =>
      p0 <- pt A j ;; p1 <- pt A (j + 1) ;;
      ax <- for_acc p0 p1 1 (fun k ax =>
              e <- el A k ;; i <- at_ A k ;; xi <- rd (x + i) ;; ret (ax +' e *' xi)) (zero K) ;;
      yj <- rd (y + j) ;;
      wr (y + j) (beta *' yj +' alpha *' ax)).

  (* gemv.c:28-55 csc_mvmult *)
  Definition csc_mvmult (beta : T) (y : Z) (alpha : T) (A : sparse T) (x flags : Z) : M T unit :=
    if flags =? 0 then sp_scale (sp_rows A) y beta ;; sp_scatter (sp_cols A) y alpha A x
    else sp_gather (sp_cols A) beta y alpha A x.

  (* gemv.c:58-85 csr_mvmult *)
  Definition csr_mvmult (beta : T) (y : Z) (alpha : T) (A : sparse T) (x flags : Z) : M T unit :=
    if flags =? 0 then sp_gather (sp_rows A) beta y alpha A x
    else sp_scale (sp_rows A) y beta ;; sp_scatter (sp_rows A) y alpha A x.

  (* gemv.c:98-101,symv.c:176-179: the second assignment parses as
     (ok && (flags & TRANS) == 0) ? ... : ... *)
  Definition sp_sizes_ok (y : view) (A : sparse T) (x : view) (flags : Z) : bool :=
    let nt := Z.land flags ARMAS_TRANS =? 0 in
    let ok := if nt then armas_size y =? sp_rows A else armas_size y =? sp_cols A in
    if ok && nt then armas_size x =? sp_cols A else armas_size x =? sp_rows A.

  (* gemv.c:91-120 armassp_mvmult; returns (return value, the error stored in
     the configuration block, 0 for none) *)
  Definition armassp_mvmult (beta : T) (y : view) (alpha : T) (A : sparse T) (x : view) (flags : Z) : M T (Z * Z) :=
    if negb (sp_sizes_ok y A x flags) then ret (-1, ARMAS_ESIZE)
    else match sp_kind A with
         | CSC => csc_mvmult beta (elems y) alpha A (elems x) flags ;; ret (0, 0)
         | CSR => csr_mvmult beta (elems y) alpha A (elems x) flags ;; ret (0, 0)
         | COO => ret (-1, ARMAS_EIMP)
         end.

  (* ------------------------------------------------------------ symv.c *)

  (* symv.c:103-106,133-136 *)
  Definition sym_scale (n y : Z) (beta : T) : M T unit :=
    when (negb (eqb K beta (one K))) (sp_scale n y beta).

  (* yk += x[ix[k]]*Ae[k]; y[ix[k]] += ax*Ae[k];   symv.c:118-121,147-150 *)
  Definition sym_pair (A : sparse T) (y x : Z) (ax : T) (k : Z) (yk : T) : M T T :=
    i <- at_ A k ;; xi <- rd (x + i) ;; e <- el A k ;;
    addto (y + i) (ax *' e) ;; ret (yk +' xi *' e).

  (* symv.c:95-125 csc_mvmult_lsym *)
  Definition csc_mvmult_lsym (beta : T) (y : Z) (alpha : T) (A : sparse T) (x : Z) : M T unit :=
    sym_scale (sp_rows A) y beta ;;
    for_up 0 (sp_cols A) 1 (fun j =>
      xj <- rd (x + j) ;;
      let ax := alpha *' xj in
      p0 <- pt A j ;; p1 <- pt A (j + 1) ;;
      k <- while_do (rounds A) (fun k => i <- at_ A k ;; ret ((i <? j) && (k <? p1))) (fun k => ret (k + 1)) p0 ;;
      i <- at_ A k ;;
      st <- (if i =? j then xi <- rd (x + i) ;; e <- el A k ;; ret (xi *' e, k + 1) else ret (zero K, k)) ;;
      yk <- for_acc (snd st) p1 1 (sym_pair A y x ax) (fst st) ;;
      addto (y + j) (alpha *' yk)).

  (* symv.c:128-157 csc_mvmult_usym *)
  Definition csc_mvmult_usym (beta : T) (y : Z) (alpha : T) (A : sparse T) (x : Z) : M T unit :=
    sym_scale (sp_rows A) y beta ;;
    for_down (sp_cols A - 1) 0 (fun j =>
      xj <- rd (x + j) ;;
      let ax := alpha *' xj in
      p0 <- pt A j ;; p1 <- pt A (j + 1) ;;
      k <- while_do (rounds A) (fun k => i <- at_ A k ;; ret ((j <? i) && (p0 <=? k))) (fun k => ret (k - 1)) (p1 - 1) ;;
      i <- at_ A k ;;
      st <- (if i =? j then xi <- rd (x + i) ;; e <- el A k ;; ret (xi *' e, k - 1) else ret (zero K, k)) ;;
      yk <- for_acc p0 (snd st + 1) 1 (sym_pair A y x ax) (fst st) ;;
      addto (y + j) (alpha *' yk)).

  (* symv.c:178-224 armassp_mvmult_sym *)
  Definition armassp_mvmult_sym (beta : T) (y : view) (alpha : T) (A : sparse T) (x : view) (flags : Z) : M T (Z * Z) :=
    match sp_kind A with
    | COO => ret (- ARMAS_EINVAL, ARMAS_EINVAL)
    | kind =>
        if negb (sp_sizes_ok y A x flags) then ret (- ARMAS_ESIZE, ARMAS_ESIZE)
        else
          let upper := Z.land flags (Z.lor ARMAS_LOWER ARMAS_UPPER) =? ARMAS_UPPER in
          let csr := kind_eqb kind CSR in
          (if Bool.eqb upper csr then csc_mvmult_lsym beta (elems y) alpha A (elems x)
           else csc_mvmult_usym beta (elems y) alpha A (elems x)) ;;
          ret (0, 0)
    end.

  (* ------------------------------------------------------------ trsv.c *)

  (* x[ix[i]] -= Ae[i]*x[j];   the right operand is read before the write *)
  Definition sub_pair (A : sparse T) (x j i : Z) : M T unit :=
    t <- at_ A i ;; e <- el A i ;; xj <- rd (x + j) ;; subfrom (x + t) (e *' xj).

  (* trsv.c:28-41 csc_mvsolve_un *)
  Definition csc_mvsolve_un (x : Z) (A : sparse T) (unit : bool) : M T Datatypes.unit :=
    for_down (sp_cols A - 1) 0 (fun j =>
      p1 <- pt A (j + 1) ;;
      k <- skip_above A (p1 - 1) j ;;
      xj <- rd (x + j) ;;
      (if unit then wr (x + j) xj else (e <- el A k ;; wr (x + j) (div K xj e))) ;;
      p0 <- pt A j ;;
      for_up p0 k 1 (sub_pair A x j)).

  (* xk += Ae[i]*x[ix[i]];  *)
  Definition dot_step (A : sparse T) (x i : Z) (xk : T) : M T T :=
    e <- el A i ;; t <- at_ A i ;; xi <- rd (x + t) ;; ret (xk +' e *' xi).

  (* trsv.c:44-61 csr_mvsolve_un *)
  Definition csr_mvsolve_un (x : Z) (A : sparse T) (unit : bool) : M T Datatypes.unit :=
    for_down (sp_rows A - 1) 0 (fun j =>
      p0 <- pt A j ;; p1 <- pt A (j + 1) ;;
      st <- while_do (rounds A)
              (fun st => andM (p0 <=? fst st) (t <- at_ A (fst st) ;; ret (j <? t)))
              (fun st => xk <- dot_step A x (fst st) (snd st) ;; ret (fst st - 1, xk)) (p1 - 1, zero K) ;;
      xj <- rd (x + j) ;;
      if unit then wr (x + j) (xj -' snd st)
      else (e <- el A (fst st) ;; wr (x + j) (div K (xj -' snd st) e))).

  (* trsv.c:65-82 csc_mvsolve_ut *)
  Definition csc_mvsolve_ut (x : Z) (A : sparse T) (unit : bool) : M T Datatypes.unit :=
    for_up 0 (sp_cols A) 1 (fun j =>
      p0 <- pt A j ;; p1 <- pt A (j + 1) ;;
      st <- while_do (rounds A)
              (fun st => andM (fst st <? p1 - 1) (t <- at_ A (fst st) ;; ret (t <? j)))
              (fun st => xk <- dot_step A x (fst st) (snd st) ;; ret (fst st + 1, xk)) (p0, zero K) ;;
      xj <- rd (x + j) ;;
      if unit then wr (x + j) (xj -' snd st)
      else (e <- el A (fst st) ;; wr (x + j) (div K (xj -' snd st) e))).

  (* trsv.c:85-98 csr_mvsolve_ut *)
  Definition csr_mvsolve_ut (x : Z) (A : sparse T) (unit : bool) : M T Datatypes.unit :=
    for_up 0 (sp_rows A) 1 (fun j =>
      p0 <- pt A j ;;
      p <- skip_below A p0 j ;;
      xj <- rd (x + j) ;;
      (if unit then wr (x + j) xj
       else (t <- at_ A p ;;
             if t =? j then (e <- el A p ;; wr (x + j) (div K xj e))
             else wr (x + j) (div K xj (zero K)))) ;;
      p1 <- pt A (j + 1) ;;
      for_up (p + 1) p1 1 (sub_pair A x j)).

  (* trsv.c:102-116 csc_mvsolve_ln *)
  Definition csc_mvsolve_ln (x : Z) (A : sparse T) (unit : bool) : M T Datatypes.unit :=
    for_up 0 (sp_cols A) 1 (fun j =>
      p0 <- pt A j ;;
      i <- skip_below A p0 j ;;
      when (negb unit) (xj <- rd (x + j) ;; e <- el A i ;; wr (x + j) (div K xj e)) ;;
      p1 <- pt A (j + 1) ;;
      for_up (i + 1) p1 1 (sub_pair A x j)).

  (* x[j] -= Ae[p]*x[ix[p]]; *)
  Definition sub_step (A : sparse T) (x j p : Z) : M T unit :=
    e <- el A p ;; t <- at_ A p ;; xi <- rd (x + t) ;; subfrom (x + j) (e *' xi).

  (* trsv.c:119-137 csr_mvsolve_ln *)
  Definition csr_mvsolve_ln (x : Z) (A : sparse T) (unit : bool) : M T Datatypes.unit :=
    when (negb unit) (x0 <- rd (x + 0) ;; p0 <- pt A 0 ;; e <- el A p0 ;; wr (x + 0) (div K x0 e)) ;;
    for_up 1 (sp_rows A) 1 (fun j =>
      p0 <- pt A j ;; p1 <- pt A (j + 1) ;;
      p <- while_do (rounds A)
             (fun p => andM (p <? p1) (t <- at_ A p ;; ret (t <? j)))
             (fun p => sub_step A x j p ;; ret (p + 1)) p0 ;;
      when (negb unit) (xj <- rd (x + j) ;; e <- el A p ;; wr (x + j) (div K xj e))).

  (* trsv.c:141-164 csc_mvsolve_lt *)
  Definition csc_mvsolve_lt (x : Z) (A : sparse T) (unit : bool) : M T Datatypes.unit :=
    let n := sp_cols A in
    q <- pt A (n - 1) ;;
    i <- skip_below A q (n - 1) ;;
    when (negb unit) (xn <- rd (x + (n - 1)) ;; e <- el A i ;; wr (x + (n - 1)) (div K xn e)) ;;
    for_down (n - 2) 0 (fun j =>
      p0 <- pt A j ;;
      k <- skip_below A p0 j ;;
      p1 <- pt A (j + 1) ;;
      for_up (k + 1) p1 1 (sub_step A x j) ;;
      when (negb unit) (xj <- rd (x + j) ;; e <- el A k ;; wr (x + j) (div K xj e))).

  (* trsv.c:167-181 csr_mvsolve_lt *)
  Definition csr_mvsolve_lt (x : Z) (A : sparse T) (unit : bool) : M T Datatypes.unit :=
    for_down (sp_rows A - 1) 0 (fun j =>
      p1 <- pt A (j + 1) ;;
      p <- skip_above A (p1 - 1) j ;;
      when (negb unit) (xj <- rd (x + j) ;; e <- el A p ;; wr (x + j) (div K xj e)) ;;
      p0 <- pt A j ;;
      for_down (p - 1) p0 (sub_pair A x j)).

  (* trsv.c:225-252, trmv.c:226-253: which of the kernels ut, un, lt, ln *)
  Definition trm_select (flags : Z) : bool * bool :=
    let s := Z.land flags (Z.lor ARMAS_UPPER (Z.lor ARMAS_LOWER ARMAS_TRANS)) in
    if s =? Z.lor ARMAS_UPPER ARMAS_TRANS then (true, true)
    else if s =? ARMAS_UPPER then (true, false)
    else if (s =? Z.lor ARMAS_LOWER ARMAS_TRANS) || (s =? ARMAS_TRANS) then (false, true)
    else (false, false).

  (* trsv.c:203-254 armassp_mvsolve_trm; alpha is not used by any kernel *)
  Definition armassp_mvsolve_trm (x : view) (alpha : T) (A : sparse T) (flags : Z) : M T Z :=
    match sp_kind A with
    | COO => ret (- ARMAS_EINVAL)
    | kind =>
        let ok := if Z.land flags ARMAS_TRANS =? 0 then armas_size x =? sp_cols A else armas_size x =? sp_rows A in
        if negb ok then ret (- ARMAS_ESIZE)
        else
          let unit := negb (Z.land flags ARMAS_UNIT =? 0) in
          let csr := kind_eqb kind CSR in
          (match trm_select flags with
           | (true, true) => (if csr then csr_mvsolve_ut else csc_mvsolve_ut) (elems x) A unit
           | (true, false) => (if csr then csr_mvsolve_un else csc_mvsolve_un) (elems x) A unit
           | (false, true) => (if csr then csr_mvsolve_lt else csc_mvsolve_lt) (elems x) A unit
           | (false, false) => (if csr then csr_mvsolve_ln else csc_mvsolve_ln) (elems x) A unit
           end) ;;
          ret 0
    end.

  (* ------------------------------------------------------------ trmv.c *)

  (* x[ix[k]] += alpha*Ae[k]*xj; *)
  Definition add_pair (A : sparse T) (x : Z) (alpha xj : T) (k : Z) : M T unit :=
    t <- at_ A k ;; e <- el A k ;; addto (x + t) (alpha *' e *' xj).

  (* trmv.c:27-45 csc_mvmult_un *)
  Definition csc_mvmult_un (x : Z) (alpha : T) (A : sparse T) (unit : bool) : M T Datatypes.unit :=
    for_up 0 (sp_cols A) 1 (fun j =>
      xj <- rd (x + j) ;;
      p0 <- pt A j ;; p1 <- pt A (j + 1) ;;
      k <- while_do (rounds A)
             (fun k => andM (k <? p1) (t <- at_ A k ;; ret (t <=? j)))
             (fun k => add_pair A x alpha xj k ;; ret (k + 1)) p0 ;;
      if unit then wr (x + j) (alpha *' xj)
      else (t <- at_ A (k - 1) ;;
            if t =? j then (e <- el A (k - 1) ;; wr (x + j) (alpha *' e *' xj)) else wr (x + j) (zero K))).

  Definition u1 (unit : bool) : Z := if unit then 1 else 0.

  (* trmv.c:49-64 csr_mvmult_un and trmv.c:148-162 csc_mvmult_lt, over n lines *)
  Definition line_mvmult_from (n x : Z) (alpha : T) (A : sparse T) (unit : bool) : M T Datatypes.unit :=
    for_up 0 n 1 (fun j =>
      xv <- (if unit then rd (x + j) else ret (zero K)) ;;
      p0 <- pt A j ;;
      k <- skip_below A p0 (j + u1 unit) ;;
      p1 <- pt A (j + 1) ;;
      xv <- for_acc k p1 1 (dot_step A x) xv ;;
      wr (x + j) (alpha *' xv)).
  Definition csr_mvmult_un (x : Z) (alpha : T) (A : sparse T) (unit : bool) := line_mvmult_from (sp_rows A) x alpha A unit.
  Definition csc_mvmult_lt (x : Z) (alpha : T) (A : sparse T) (unit : bool) := line_mvmult_from (sp_cols A) x alpha A unit.

  (* trmv.c:67-82 csc_mvmult_ut and trmv.c:131-144 csr_mvmult_ln, over n lines *)
  Definition line_mvmult_to (n x : Z) (alpha : T) (A : sparse T) (unit : bool) : M T Datatypes.unit :=
    for_down (n - 1) 0 (fun j =>
      xv <- (if unit then rd (x + j) else ret (zero K)) ;;
      p0 <- pt A j ;; p1 <- pt A (j + 1) ;;
      st <- while_do (rounds A)
              (fun st => andM (fst st <? p1) (t <- at_ A (fst st) ;; ret (t <=? j - u1 unit)))
              (fun st => xv <- dot_step A x (fst st) (snd st) ;; ret (fst st + 1, xv)) (p0, xv) ;;
      wr (x + j) (alpha *' snd st)).
  Definition csc_mvmult_ut (x : Z) (alpha : T) (A : sparse T) (unit : bool) := line_mvmult_to (sp_cols A) x alpha A unit.
  Definition csr_mvmult_ln (x : Z) (alpha : T) (A : sparse T) (unit : bool) := line_mvmult_to (sp_rows A) x alpha A unit.

  (* trmv.c:85-103 csr_mvmult_ut *)
  Definition csr_mvmult_ut (x : Z) (alpha : T) (A : sparse T) (unit : bool) : M T Datatypes.unit :=
    for_down (sp_rows A - 1) 0 (fun j =>
      xj <- rd (x + j) ;;
      p0 <- pt A j ;; p1 <- pt A (j + 1) ;;
      k <- while_do (rounds A)
             (fun k => andM (p0 <=? k) (t <- at_ A k ;; ret (j <? t)))
             (fun k => add_pair A x alpha xj k ;; ret (k - 1)) (p1 - 1) ;;
      if unit then wr (x + j) (alpha *' xj)
      else (t <- at_ A k ;;
            if t =? j then (e <- el A k ;; wr (x + j) (alpha *' e *' xj)) else wr (x + j) (zero K))).

  (* trmv.c:107-128 csc_mvmult_ln *)
  Definition csc_mvmult_ln (x : Z) (alpha : T) (A : sparse T) (unit : bool) : M T Datatypes.unit :=
    for_down (sp_cols A - 1) 0 (fun j =>
      xj <- rd (x + j) ;;
      p0 <- pt A j ;;
      k <- skip_below A p0 (j + u1 unit) ;;
      p1 <- pt A (j + 1) ;;
      for_up k p1 1 (add_pair A x alpha xj) ;;
      if unit then wr (x + j) (alpha *' xj)
      else (t <- at_ A k ;;
            if t =? j then (e <- el A k ;; wr (x + j) (alpha *' e *' xj)) else wr (x + j) (zero K))).

  (* trmv.c:165-183 csr_mvmult_lt *)
  Definition csr_mvmult_lt (x : Z) (alpha : T) (A : sparse T) (unit : bool) : M T Datatypes.unit :=
    for_up 0 (sp_rows A) 1 (fun j =>
      xj <- rd (x + j) ;;
      p0 <- pt A j ;; p1 <- pt A (j + 1) ;;
      p <- while_do (rounds A)
             (fun p => andM (p <? p1) (t <- at_ A p ;; ret (t <? j)))
             (fun p => add_pair A x alpha xj p ;; ret (p + 1)) p0 ;;
      if unit then wr (x + j) (alpha *' xj)
      else (t <- at_ A p ;;
            if t =? j then (e <- el A p ;; wr (x + j) (alpha *' e *' xj)) else wr (x + j) (zero K))).

  (* trmv.c:205-255 armassp_mvmult_trm *)
  Definition armassp_mvmult_trm (x : view) (alpha : T) (A : sparse T) (flags : Z) : M T Z :=
    match sp_kind A with
    | COO => ret (- ARMAS_EINVAL)
    | kind =>
        let ok := if Z.land flags ARMAS_TRANS =? 0 then armas_size x =? sp_cols A else armas_size x =? sp_rows A in
        if negb ok then ret (- ARMAS_ESIZE)
        else
          let unit := negb (Z.land flags ARMAS_UNIT =? 0) in
          let csr := kind_eqb kind CSR in
          (match trm_select flags with
           | (true, true) => (if csr then csr_mvmult_ut else csc_mvmult_ut) (elems x) alpha A unit
           | (true, false) => (if csr then csr_mvmult_un else csc_mvmult_un) (elems x) alpha A unit
           | (false, true) => (if csr then csr_mvmult_lt else csc_mvmult_lt) (elems x) alpha A unit
           | (false, false) => (if csr then csr_mvmult_ln else csc_mvmult_ln) (elems x) alpha A unit
           end) ;;
          ret 0
    end.

  (* ------------------------------------------------------------ diag.c *)

  (* diag.c:43-47,59-63: Ae[p] *= alpha*xp[i] over the lines i;  diag.c:49-53,
     65-69: Ae[p] *= alpha*xp[ix[p]] *)
  Definition diag_lines (n : Z) (byline : bool) (alpha : T) (A : sparse T) (x : Z) : M T (sparse T) :=
    v <- for_acc 0 n 1 (fun i v =>
           p0 <- pt A i ;; p1 <- pt A (i + 1) ;;
           for_acc p0 p1 1 (fun p v =>
             t <- (if byline then ret i else at_ A p) ;;
             xi <- rd (x + t) ;;
             e <- aread v p ;; awrite v p (e *' (alpha *' xi))) v) (sp_v A) ;;
    ret (sp_with_v A v).

  (* diag.c:30-74 armassp_mult_diag; returns the return value and the changed matrix *)
  Definition armassp_mult_diag (A : sparse T) (alpha : T) (x : view) (flags : Z) : M T (Z * sparse T) :=
    match sp_kind A with
    | COO => ret (-1, A)
    | kind =>
        let right := Z.land flags (Z.lor ARMAS_LEFT ARMAS_RIGHT) =? ARMAS_RIGHT in
        let csc := kind_eqb kind CSC in
        A' <- diag_lines (if csc then sp_cols A else sp_rows A) (Bool.eqb right csc) alpha A (elems x) ;;
        ret (0, A')
    end.

  (* diag.c:87-90,96-99: position of the diagonal element of line i; the index
     is read before the position is compared with the end of the line *)
  Definition diag_pos (A : sparse T) (i : Z) : M T Z :=
    p0 <- pt A i ;; p1 <- pt A (i + 1) ;;
    while_do (rounds A) (fun p => t <- at_ A p ;; ret ((t <? i) && (p <? p1))) (fun p => ret (p + 1)) p0.

  (* diag.c:79-106 armassp_add_diag *)
  Definition armassp_add_diag (A : sparse T) (mu : T) : M T (Z * sparse T) :=
    match sp_kind A with
    | COO => ret (-1, A)
    | kind =>
        v <- for_acc 0 (if kind_eqb kind CSR then sp_rows A else sp_cols A) 1 (fun i v =>
               p <- diag_pos A i ;;
               t <- at_ A p ;;
               if t =? i then (e <- aread v p ;; awrite v p (e +' mu)) else ret v) (sp_v A) ;;
        ret (0, sp_with_v A v)
    end.

  (* src/include/sparse.h:256-263 armassp_nz; the index is read before the
     position is compared with the end of the line *)
  Definition armassp_nz (A : sparse T) (j ix : Z) : M T Z :=
    p0 <- pt A j ;; p1 <- pt A (j + 1) ;;
    st <- while_do (rounds A)
            (fun st => match snd st with
                       | Some _ => ret false
                       | None => t <- at_ A (fst st) ;; ret ((t <=? ix) && (fst st <? p1))
                       end)
            (fun st => t <- at_ A (fst st) ;; if t =? ix then ret (fst st, Some (fst st)) else ret (fst st + 1, None))
            (p0, None) ;;
    ret (match snd st with Some p => p | None => -1 end).

  (* util.c:196-199,209-212: whether the index i occurs in line j *)
  Definition line_has (A : sparse T) (j i : Z) : M T bool :=
    p0 <- pt A j ;; p1 <- pt A (j + 1) ;;
    for_acc p0 p1 1 (fun p found => if found : bool then ret true else (t <- at_ A p ;; ret (t =? i))) false.

  (* util.c:169-222 armassp_hasdiag, A not null; the return value as a bool.
     The inner loops stop at the first match; the model goes on without reading *)
  Definition armassp_hasdiag (A : sparse T) (diag : Z) : M T bool :=
    if negb (sp_rows A =? sp_cols A) then ret false
    else if (diag <? 0) && (sp_rows A <? - diag) then ret false
    else if (0 <? diag) && (sp_cols A <? diag) then ret false
    else
      nc <- (match sp_kind A with
             | COO =>
                 let roff := if diag <? 0 then 0 else diag in
                 let coff := if 0 <? diag then 0 else diag in
                 for_acc 0 (sp_nnz A) 1 (fun i nc =>
                   e <- aread (sp_ep A) i ;;
                   ret (if ci e + coff =? cj e + roff then nc - 1 else nc))
                   (if diag <? 0 then sp_rows A + diag else sp_cols A - diag)
             | CSC =>
                 let start := if 0 <? diag then diag else 0 in
                 let last := if diag <? 0 then sp_cols A - diag else sp_cols A in
                 for_acc start last 1 (fun j nc =>
                   b <- line_has A j (j - start) ;; ret (if b : bool then nc - 1 else nc)) (last - start)
             | CSR =>
                 let start := if diag <? 0 then - diag else 0 in
                 let last := if 0 <? diag then sp_rows A - diag else sp_rows A in
                 for_acc start last 1 (fun i nc =>
                   b <- line_has A i (i - start) ;; ret (if b : bool then nc - 1 else nc)) (last - start)
             end) ;;
      ret (nc =? 0).
End SpVec.
