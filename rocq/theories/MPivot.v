(* MPivot.v: model of the pivoting functions of src/base/pivot.c. *)
From Coq Require Import ZArith Bool.
From Verif Require Import Mem MView MFlags MCopy.
Local Open Scope Z_scope.
Local Open Scope prog_scope.

(* src/include/armas.h:95-102 *)
Definition ARMAS_PIVOT_FORWARD : Z := 0.
Definition ARMAS_PIVOT_BACKWARD : Z := 1.
Definition ARMAS_PIVOT_ROWS : Z := 2.
Definition ARMAS_PIVOT_COLS : Z := 4.
Definition ARMAS_PIVOT_UPPER : Z := 8.
Definition ARMAS_PIVOT_LOWER : Z := 16.

(* src/include/armas.h armas_pivot_t: the number of pivots and the one-based
   indexes; the index storage is not part of the element memory *)
Record pivots : Type := mkpiv { npivots : Z; indexes : Z -> Z }.

(* src/include/armas.h:506-509 armas_pivot_get (non-null argument) *)
Definition armas_pivot_get (P : pivots) (k : Z) : Z :=
  if (0 <=? k) && (k <? npivots P) then indexes P k else 0.

Section Pivot.
  Context {T : Type}.

  (* src/base/pivot.c:47-80 apply_pivot_lower; the results of armas_swap are ignored *)
  Definition apply_pivot_lower (A : view) (srcix dstix : Z) : M T unit :=
    if srcix =? dstix then ret tt
    else
      let '(srcix, dstix) := if srcix >? dstix then (dstix, srcix) else (srcix, dstix) in
      when (srcix >? 0)
        (armas_swap (armas_submatrix_unsafe A srcix 0 1 srcix)
                    (armas_submatrix_unsafe A dstix 0 1 srcix) ;; ret tt) ;;
      armas_swap (armas_submatrix_unsafe A (srcix + 1) srcix (dstix - srcix - 1) 1)
                 (armas_submatrix_unsafe A dstix (srcix + 1) 1 (dstix - srcix - 1)) ;;
      armas_swap (armas_submatrix_unsafe A (dstix + 1) srcix (rows A - dstix - 1) 1)
                 (armas_submatrix_unsafe A (dstix + 1) dstix (rows A - dstix - 1) 1) ;;
      p1 <- armas_get_unsafe A srcix srcix ;;
      p3 <- armas_get_unsafe A dstix dstix ;;
      armas_set_unsafe A srcix srcix p3 ;;
      armas_set_unsafe A dstix dstix p1.

  (* src/base/pivot.c:97-128 apply_pivot_upper *)
  Definition apply_pivot_upper (A : view) (srcix dstix : Z) : M T unit :=
    if srcix =? dstix then ret tt
    else
      let '(srcix, dstix) := if srcix <? dstix then (dstix, srcix) else (srcix, dstix) in
      armas_swap (armas_submatrix_unsafe A srcix (srcix + 1) 1 (cols A - srcix - 1))
                 (armas_submatrix_unsafe A dstix (srcix + 1) 1 (cols A - srcix - 1)) ;;
      armas_swap (armas_submatrix_unsafe A (dstix + 1) srcix (srcix - dstix - 1) 1)
                 (armas_submatrix_unsafe A dstix (dstix + 1) 1 (srcix - dstix - 1)) ;;
      armas_swap (armas_submatrix_unsafe A 0 srcix dstix 1)
                 (armas_submatrix_unsafe A 0 dstix dstix 1) ;;
      p1 <- armas_get_unsafe A srcix srcix ;;
      p3 <- armas_get_unsafe A dstix dstix ;;
      armas_set_unsafe A srcix srcix p3 ;;
      armas_set_unsafe A dstix dstix p1.

  (* src/base/pivot.c:135-147 swap_rows *)
  Definition swap_rows (A : view) (src dst : Z) : M T unit :=
    if (src =? dst) || (cols A <=? 0) then ret tt
    else if (src >=? rows A) || (dst >=? rows A) then ret tt
    else
      armas_swap (armas_submatrix A src 0 1 (cols A)) (armas_submatrix A dst 0 1 (cols A)) ;; ret tt.

  (* src/base/pivot.c:152-164 swap_cols *)
  Definition swap_cols (A : view) (src dst : Z) : M T unit :=
    if (src =? dst) || (rows A <=? 0) then ret tt
    else if (src >=? cols A) || (dst >=? cols A) then ret tt
    else
      armas_swap (armas_submatrix A 0 src (rows A) 1) (armas_submatrix A 0 dst (rows A) 1) ;; ret tt.

  (* src/base/pivot.c:169-194 apply_row_pivots; P->indexes[k] with 0 <= k < npivots.
     The variable nk = A->rows-1 - (P->npivots-1-k) is written as a function of k *)
  Definition apply_row_pivots (A : view) (P : pivots) (dir : Z) : M T unit :=
    if cols A =? 0 then ret tt
    else if dir =? ARMAS_PIVOT_FORWARD then
      for_up 0 (npivots P) 1 (fun k =>
        let n := indexes P k in
        when ((n >? 0) && negb (n - 1 =? k)) (swap_rows A (n - 1) k))
    else
      for_down (npivots P - 1) 0 (fun k =>
        let nk := rows A - 1 - (npivots P - 1 - k) in
        let n := indexes P k in
        when ((n >? 0) && negb (n - 1 =? nk)) (swap_rows A (n - 1) nk)).

  (* src/base/pivot.c:199-224 apply_col_pivots *)
  Definition apply_col_pivots (A : view) (P : pivots) (dir : Z) : M T unit :=
    if rows A =? 0 then ret tt
    else if dir =? ARMAS_PIVOT_FORWARD then
      for_up 0 (npivots P) 1 (fun k =>
        let n := indexes P k in
        when ((n >? 0) && negb (n - 1 =? k)) (swap_cols A (n - 1) k))
    else
      for_down (npivots P - 1) 0 (fun k =>
        let nk := cols A - 1 - (npivots P - 1 - k) in
        let n := indexes P k in
        when ((n >? 0) && negb (n - 1 =? nk)) (swap_cols A (n - 1) nk)).

  (* src/base/pivot.c:231-241 armas_pivot_rows *)
  Definition armas_pivot_rows (A : view) (P : pivots) (flags : Z) : M T Z :=
    if rows A <? npivots P then ret (-1)
    else apply_row_pivots A P flags ;; ret 0.

  (* src/base/pivot.c:248-258 armas_pivot_cols *)
  Definition armas_pivot_cols (A : view) (P : pivots) (flags : Z) : M T Z :=
    if cols A <? npivots P then ret (-1)
    else apply_col_pivots A P flags ;; ret 0.

  (* src/base/pivot.c:290-368 armas_pivot *)
  Definition armas_pivot (A : view) (P : pivots) (flags : Z) : M T Z :=
    let dir := Z.land flags 1 in
    let flags := flags - dir in
    let symm (apply : view -> Z -> Z -> M T unit) :=
      if rows A <? npivots P then ret (-1)
      else if dir =? ARMAS_PIVOT_FORWARD then
        for_up 0 (npivots P) 1 (fun k =>
          let kp := armas_pivot_get P k in
          when (negb (kp - 1 =? k)) (apply A k (kp - 1))) ;; ret 0
      else
        for_down (npivots P - 1) 0 (fun k =>
          let nk := rows A - 1 - (npivots P - 1 - k) in
          let kp := armas_pivot_get P k in
          when (negb (kp - 1 =? nk)) (apply A (kp - 1) nk)) ;; ret 0 in
    if flags =? ARMAS_PIVOT_UPPER then symm apply_pivot_upper
    else if flags =? ARMAS_PIVOT_LOWER then symm apply_pivot_lower
    else if flags =? ARMAS_PIVOT_COLS then
      if cols A <? npivots P then ret (-1) else apply_col_pivots A P dir ;; ret 0
    else
      if rows A <? npivots P then ret (-1) else apply_row_pivots A P dir ;; ret 0.
End Pivot.
