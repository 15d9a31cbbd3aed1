(* MSort.v: model of src/lapack/sort.c, src/lapack/qsort.c and of armas_pivot_sort of
   src/base/pivot.c.  The comparisons a <= b and a >= b are modelled as not b < a and
   not a < b (no unordered values). *)
From Coq Require Import ZArith Bool.
From Verif Require Import Mem MView MFlags MCopy MNum MPivot.
Local Open Scope Z_scope.
Local Open Scope prog_scope.

Section Sort.
  Context {T : Type} (K : num T).

  (* before up a b: a may stay before b in the requested order *)
  Definition before (up : bool) (a b : T) : bool := if up then negb (ltb K b a) else negb (ltb K a b).

  (* src/lapack/sort.c:51-56, 93-98 (updown > 0), 63-68, 104-109: the loop
     for (j = k; j > 0; j--); get = armas_get_at_unsafe or its absolute value.
     The result is the final value of j *)
  Fixpoint shift (get : Z -> M T T) (D : view) (up : bool) (cval : T) (j : nat) : M T Z :=
    match j with
    | O => ret 0
    | S j' =>
        tmpval <- get (Z.of_nat j') ;;
        if before up tmpval cval then ret (Z.of_nat j)
        else armas_set_at_unsafe D (Z.of_nat j) tmpval ;; shift get D up cval j'
    end.

  Definition isort (get : Z -> M T T) (D : view) (up : bool) : M T unit :=
    for_up 1 (armas_size D) 1 (fun k =>
      cval <- get k ;;
      j <- shift get D up cval (Z.to_nat k) ;;
      armas_set_at_unsafe D j cval).

  (* src/lapack/sort.c:84-112 armas_sort_vec; src/lapack/qsort.c:31-45, 48-62 armas_isort_asc/desc *)
  Definition armas_sort_vec (D : view) (updown : Z) : M T unit :=
    isort (armas_get_at_unsafe D) D (updown >? 0).

  (* src/lapack/sort.c:42-71 armas_abs_sort_vec *)
  Definition armas_abs_sort_vec (D : view) (updown : Z) : M T unit :=
    isort (fun k => v <- armas_get_at_unsafe D k ;; ret (abs K v)) D (updown >? 0).

  (* src/lapack/sort.c:118-145 vec_minmax *)
  Definition vec_minmax (D : view) (updown : Z) : M T Z :=
    let incx := if rows D =? 1 then step D else 1 in
    v0 <- rd (elems D) ;;
    r <- for_acc 1 (armas_size D) 1 (fun k (s : T * Z) =>
      tmpval <- rd (elems D + k * incx) ;;
      ret (if (if updown >? 0 then ltb K (fst s) tmpval else ltb K tmpval (fst s))
           then (tmpval, k) else s)) (v0, 0) ;;
    ret (snd r).

  (* src/lapack/sort.c:200-251 armas_sort_eigenvec; an absent matrix is None;
     ARMAS_ENEED_VECTOR = 2 *)
  Definition swap_at (D : view) (k l : Z) : M T unit :=
    t0 <- armas_get_at_unsafe D k ;;
    t1 <- armas_get_at_unsafe D l ;;
    armas_set_at_unsafe D k t1 ;;
    armas_set_at_unsafe D l t0.

  Definition opt_when (V : option view) (f : view -> M T unit) : M T unit :=
    match V with Some A => f A | None => ret tt end.

  Definition armas_sort_eigenvec (D : view) (U V C : option view) (updown : Z) : M T Z :=
    let N := armas_size D in
    if negb (armas_isvector D) then ret (-2)
    else match U, V, C with
    | None, None, None => armas_sort_vec D updown ;; ret 0
    | _, _, _ =>
      for_up 0 (N - 1) 1 (fun k =>
        let sD := armas_subvector D k (N - k) in
        pk <- vec_minmax sD (- updown) ;;
        when (negb (pk =? 0))
         (swap_at D k (k + pk) ;;
          opt_when U (fun U =>
            armas_swap (armas_column U (k + pk)) (armas_column U k) ;; ret tt) ;;
          opt_when V (fun V =>
            armas_swap (armas_row V (k + pk)) (armas_row V k) ;; ret tt) ;;
          opt_when C (fun C =>
            if armas_isvector C then swap_at C k (k + pk)
            else armas_swap (armas_column C (k + pk)) (armas_column C k) ;; ret tt))) ;;
      ret 0
    end.

  (* src/lapack/qsort.c:81, 116: for (; x[i] < pivot && i < n; i++); the element is read first *)
  Fixpoint scan_up (fuel : nat) (x : view) (up : bool) (pivot : T) (i n : Z) : M T Z :=
    match fuel with
    | O => fail
    | S f =>
        v <- armas_get_at_unsafe x i ;;
        if (if up then ltb K v pivot else ltb K pivot v) && (i <? n)
        then scan_up f x up pivot (i + 1) n else ret i
    end.

  (* src/lapack/qsort.c:82, 117: for (; x[j] > pivot; j--) *)
  Fixpoint scan_down (fuel : nat) (x : view) (up : bool) (pivot : T) (j : Z) : M T Z :=
    match fuel with
    | O => fail
    | S f =>
        v <- armas_get_at_unsafe x j ;;
        if (if up then ltb K pivot v else ltb K v pivot)
        then scan_down f x up pivot (j - 1) else ret j
    end.

  (* src/lapack/qsort.c:80-88, 115-123: for (;;); the result is the final value of j.
     Fuel bounds the number of rounds; the scans get n+1 steps *)
  Fixpoint part_loop (fuel : nat) (x : view) (up : bool) (pivot : T) (i j n : Z) : M T Z :=
    match fuel with
    | O => fail
    | S f =>
        i <- scan_up (Z.to_nat n + 1) x up pivot i n ;;
        j <- scan_down (Z.to_nat n + 1) x up pivot j ;;
        if i >=? j then ret j
        else swap_at x i j ;; part_loop f x up pivot i j n
    end.

  Definition CUTOFF : Z := 8.

  (* src/lapack/qsort.c:65-97 armas_qsort_asc (up), 100-132 armas_qsort_desc *)
  Fixpoint qsort_rec (fuel : nat) (x : view) (up : bool) : M T unit :=
    match fuel with
    | O => fail
    | S f =>
      if armas_size x <? CUTOFF then isort (armas_get_at_unsafe x) x up
      else
        let n := armas_size x in
        pivot <- armas_get_at_unsafe x (n / 2) ;;
        v0 <- armas_get_at_unsafe x 0 ;;
        armas_set_at_unsafe x (n / 2) v0 ;;
        armas_set_at_unsafe x 0 pivot ;;
        j <- part_loop f x up pivot 1 (n - 1) n ;;
        vj <- armas_get_at_unsafe x j ;;
        armas_set_at_unsafe x 0 vj ;;
        armas_set_at_unsafe x j pivot ;;
        qsort_rec f (armas_subvector_unsafe x 0 j) up ;;
        qsort_rec f (armas_subvector_unsafe x (j + 1) (n - j - 1)) up
    end.

  (* src/lapack/qsort.c:146-158 armas_qsort_vec *)
  Definition armas_qsort_vec (fuel : nat) (D : view) (updown : Z) : M T Z :=
    if negb (armas_isvector D) then ret (-2)
    else qsort_rec fuel D (updown >? 0) ;; ret 0.
End Sort.
