(* MSymm.v: model of src/blas/symm.c and of the symmetric block copies of
   src/include/matcpy.h it uses. *)
From Coq Require Import ZArith Bool.
From Verif Require Import Mem MView MFlags MBase MCopy MNum MBlas1 MElem MBlas2 MGemm.
Local Open Scope Z_scope.
Local Open Scope prog_scope.

Section Symm.
  Context {T : Type}.
  Variable K : num T.
  Local Notation subm := armas_submatrix_unsafe.

  (* unit ? 1.0 : src[j + j*ldS], matcpy.h:144 and 157 *)
  Definition fill_diag (d s : Z) (un : bool) : M T unit :=
    if un then wr d (one K) else (x <- rd s ;; wr d x).

  (* src/include/matcpy.h:131-146 colcpy_fill_low *)
  Definition colcpy_fill_low (d ldD s ldS nR nC : Z) (un : bool) : M T unit :=
    for_up 0 nC 1 (fun j =>
      for_up 0 j 1 (fun i =>
        (x <- rd (s + (i + j * ldS)) ;; wr (d + (i + j * ldD)) x) ;;
        (x <- rd (s + (i + j * ldS)) ;; wr (d + (j + i * ldD)) x)) ;;
      fill_diag (d + (j + j * ldD)) (s + (j + j * ldS)) un).

  (* src/include/matcpy.h:150-165 colcpy_fill_up *)
  Definition colcpy_fill_up (d ldD s ldS nR nC : Z) (un : bool) : M T unit :=
    for_up 0 nC 1 (fun j =>
      fill_diag (d + (j + j * ldD)) (s + (j + j * ldS)) un ;;
      for_up (j + 1) nC 1 (fun i =>
        (x <- rd (s + (i + j * ldS)) ;; wr (d + (i + j * ldD)) x) ;;
        (x <- rd (s + (i + j * ldS)) ;; wr (d + (j + i * ldD)) x))).

  (* src/include/matcpy.h:350-354 CPTRIL_UFILL *)
  Definition CPTRIL_UFILL (d s : view) (nR nC : Z) (un : bool) : M T unit :=
    colcpy_fill_up (elems d) (step d) (elems s) (step s) nR nC un.

  (* src/include/matcpy.h:356-360 CPTRIU_LFILL *)
  Definition CPTRIU_LFILL (d s : view) (nR nC : Z) (un : bool) : M T unit :=
    colcpy_fill_low (elems d) (step d) (elems s) (step s) nR nC un.

  (* src/blas/symm.c:32-78 mult_symm_diag *)
  Definition mult_symm_diag (C : view) (alpha : T) (A B : view) (flags : Z) (ch : cache) : M T unit :=
    let un := has flags ARMAS_UNIT in
    let Ac := armas_make (rows A) (cols A) (ab_step ch) (Acpy ch) in
    (if has flags ARMAS_LOWER
     then CPTRIL_UFILL Ac A (rows A) (cols A) un
     else CPTRIU_LFILL Ac A (rows A) (cols A) un) ;;
    if has flags ARMAS_RIGHT then
      if has flags ARMAS_TRANSB then
        let Bc := armas_make (rows B) (cols B) (ab_step ch) (Bcpy ch) in
        CPBLK K Bc B (rows B) (cols B) flags ;;
        armas_mult_kernel_inner K C alpha Bc Ac (rb ch)
      else
        let Bc := armas_make (cols B) (rows B) (ab_step ch) (Bcpy ch) in
        CPBLK_TRANS K Bc B (rows B) (cols B) flags ;;
        armas_mult_kernel_inner K C alpha Bc Ac (rb ch)
    else
      if has flags ARMAS_TRANSB then
        let Bc := armas_make (cols B) (rows B) (ab_step ch) (Bcpy ch) in
        CPBLK_TRANS K Bc B (rows B) (cols B) flags ;;
        armas_mult_kernel_inner K C alpha Ac Bc (rb ch)
      else
        let Bc := armas_make (rows B) (cols B) (ab_step ch) (Bcpy ch) in
        CPBLK K Bc B (rows B) (cols B) flags ;;
        armas_mult_kernel_inner K C alpha Ac Bc (rb ch).

  (* the loop body of armas_mult_symm_left, src/blas/symm.c:126-169 *)
  Definition symm_left_block (beta : T) (C : view) (alpha : T) (A B : view) (flags P : Z) (ch : cache)
      (i nI j nJ : Z) : M T unit :=
    let up := has flags ARMAS_UPPER in
    let tb := has flags ARMAS_TRANSB in
    let flags1 := Z.lor (if up then ARMAS_TRANSA else 0) (if tb then ARMAS_TRANSB else 0) in
    let flags2 := Z.lor (if up then 0 else ARMAS_TRANSA) (if tb then ARMAS_TRANSB else 0) in
    let C0 := subm C i j nI nJ in
    armas_scale_unsafe K C0 beta ;;
    let A0 := subm A (if up then 0 else P + i) (if up then P + i else 0)
                     (if up then P + i else nI) (if up then nI else P + i) in
    let B0 := if tb then subm B j 0 nJ (P + i) else subm B 0 j (P + i) nJ in
    armas_mult_kernel_nc K C0 alpha A0 B0 flags1 ch ;;
    let A0 := subm A (P + i) (P + i) nI nI in
    let B0 := if tb then subm B j i nJ nI else subm B i j nI nJ in
    mult_symm_diag C0 alpha A0 B0 flags ch ;;
    let r := P + (if up then i else i + nI) in
    let c := P + (if up then i + nI else i) in
    let A0 := subm A r c (if up then nI else cols A - r) (if up then cols A - c else nI) in
    let B0 := if tb then subm B j (i + nI) nJ (cols B - i - nI) else subm B (i + nI) j (rows B - i - nI) nJ in
    armas_mult_kernel_nc K C0 alpha A0 B0 flags2 ch.

  (* src/blas/symm.c:80-171 armas_mult_symm_left *)
  Definition armas_mult_symm_left (beta : T) (C : view) (alpha : T) (A B : view) (flags P : Z) (ch : cache) : M T unit :=
    if eqb K alpha (zero K) then
      when (negb (eqb K beta (one K))) (armas_scale_unsafe K C beta)
    else
      let mb := if rows C <? MB ch then rows C else MB ch in
      let nb := if cols C <? NB ch then cols C else NB ch in
      for_step 0 (rows C) mb (fun i =>
        let nI := if rows C - i <? mb then rows C - i else mb in
        for_step 0 (cols C) nb (fun j =>
          let nJ := if cols C - j <? nb then cols C - j else nb in
          symm_left_block beta C alpha A B flags P ch i nI j nJ)).

  (* the loop body of armas_mult_symm_right, src/blas/symm.c:224-265; the block of B beside the
     diagonal block of A is taken with the checking armas_submatrix *)
  Definition symm_right_block (beta : T) (C : view) (alpha : T) (A B : view) (flags P : Z) (ch : cache)
      (ic nC ir nR : Z) : M T unit :=
    let up := has flags ARMAS_UPPER in
    let tb := has flags ARMAS_TRANSB in
    let flags1 := Z.lor (if tb then ARMAS_TRANSA else 0) (if up then 0 else ARMAS_TRANSB) in
    let flags2 := Z.lor (if tb then ARMAS_TRANSA else 0) (if up then ARMAS_TRANSB else 0) in
    let C0 := subm C ir ic nR nC in
    armas_scale_unsafe K C0 beta ;;
    let A0 := subm A (if up then 0 else P + ic) (if up then P + ic else 0)
                     (if up then P + ic else nC) (if up then nC else P + ic) in
    let B0 := if tb then subm B 0 ir (P + ic) nR else subm B ir 0 nR (P + ic) in
    armas_mult_kernel_nc K C0 alpha B0 A0 flags1 ch ;;
    let A0 := subm A (P + ic) (P + ic) nC nC in
    let B0 := if tb then armas_submatrix B ic ir nC nR else armas_submatrix B ir ic nR nC in
    mult_symm_diag C0 alpha A0 B0 flags ch ;;
    let A0 := subm A (if up then P + ic else P + ic + nC) (if up then P + ic + nC else P + ic)
                     (if up then nC else cols A - (P + ic + nC)) (if up then cols A - (P + ic + nC) else nC) in
    let B0 := if tb then subm B (ic + nC) ir (rows B - (P + ic + nC)) nR
              else subm B ir (ic + nC) nR (cols B - (P + ic + nC)) in
    armas_mult_kernel_nc K C0 alpha B0 A0 flags2 ch.

  (* src/blas/symm.c:174-268 armas_mult_symm_right *)
  Definition armas_mult_symm_right (beta : T) (C : view) (alpha : T) (A B : view) (flags P : Z) (ch : cache) : M T unit :=
    if eqb K alpha (zero K) then
      when (negb (eqb K beta (one K))) (armas_scale_unsafe K C beta)
    else
      let mb := if rows C <? MB ch then rows C else MB ch in
      let nb := if cols C <? NB ch then cols C else NB ch in
      for_step 0 (cols C) nb (fun ic =>
        let nC := if cols C - ic <? nb then cols C - ic else nb in
        for_step 0 (rows C) mb (fun ir =>
          let nR := if rows C - ir <? mb then rows C - ir else mb in
          symm_right_block beta C alpha A B flags P ch ic nC ir nR)).

  (* src/blas/symm.c:384-400 armas_mult_sym_unsafe *)
  Definition armas_mult_sym_unsafe (beta : T) (C : view) (alpha : T) (A B : view) (flags P : Z) (ch : cache) : M T unit :=
    if has flags ARMAS_RIGHT then armas_mult_symm_right beta C alpha A B flags P ch
    else armas_mult_symm_left beta C alpha A B flags P ch.

  (* the size check, src/blas/symm.c:320-346 *)
  Definition symm_ok (C A B : view) (flags : Z) : bool :=
    let s := Z.land flags (Z.lor (Z.lor ARMAS_LEFT ARMAS_RIGHT) ARMAS_TRANSB) in
    if s =? Z.lor ARMAS_RIGHT ARMAS_TRANSB then
      (rows C =? cols B) && (cols C =? cols A) && (rows B =? rows A) && (rows A =? cols A)
    else if s =? ARMAS_RIGHT then
      (rows C =? rows B) && (cols C =? cols A) && (cols B =? rows A) && (rows A =? cols A)
    else if (s =? Z.lor ARMAS_LEFT ARMAS_TRANSB) || (s =? ARMAS_TRANSB) then
      (rows C =? rows A) && (cols C =? rows B) && (cols A =? cols B) && (rows A =? cols A)
    else
      (rows C =? rows A) && (cols C =? cols B) && (cols A =? rows B) && (rows A =? cols A).

  (* src/blas/symm.c:303-382 armas_mult_sym without accelerators (CONFIG_ACCELERATORS is 0 by
     default).  cb is what armas_cbuf_select found, None when it failed; mb, nb, kb come from the
     environment; p = sizeof(DTYPE) *)
  Definition armas_mult_sym (cb : option cbuf) (mb nb kb p : Z)
      (beta : T) (C : view) (alpha : T) (A B : view) (flags : Z) : M T Z :=
    if (rows C =? 0) || (cols C =? 0) then ret 0
    else if (armas_size A =? 0) || (armas_size B =? 0) then ret 0
    else if negb (symm_ok C A B flags) then ret (- ARMAS_ESIZE)
    else match cb with
    | None => ret (- ARMAS_EMEMORY)
    | Some cb =>
      armas_mult_sym_unsafe beta C alpha A B flags 0 (elem_cache (armas_cache_setup2 cb mb nb kb p) p) ;;
      ret 0
    end.
End Symm.
