(* MUpdTrm.v: model of src/blas/updtrmm.c and of armas_update_sym in src/blas/syrk.c. *)
From Coq Require Import ZArith Bool.
From Verif Require Import Mem MView MFlags MBase MCopy MNum MBlas1 MElem MBlas2 MGemm.
Local Open Scope Z_scope.
Local Open Scope prog_scope.

Section UpdTrm.
  Context {T : Type}.
  Variable K : num T.
  (* recursion depth and env->blas2min *)
  Variables (fuel : nat) (blas2min : Z).

  Local Notation subm := armas_submatrix_unsafe.

  (* The switches on flags & (ARMAS_TRANSA|ARMAS_TRANSB) of updtrmm.c choose the view of A by
     the bit ARMAS_TRANSA and the view of B by the bit ARMAS_TRANSB, independently: the four
     cases of each switch are written here as two choices. *)

  (* rows i .. i+n-1 of op(A); updtrmm.c:127-144, 153-170, 175-192 and others *)
  Definition upd_A (flags : Z) (A : view) (i n : Z) : view :=
    if has flags ARMAS_TRANSA then subm A 0 i (rows A) n else subm A i 0 n (cols A).
  (* columns j .. j+n-1 of op(B) *)
  Definition upd_B (flags : Z) (B : view) (j n : Z) : view :=
    if has flags ARMAS_TRANSB then subm B j 0 n (cols B) else subm B 0 j (rows B) n.
  (* all of op(A) from row i, as in A->rows-i or A->cols-i *)
  Definition upd_A_from (flags : Z) (A : view) (i : Z) : view :=
    if has flags ARMAS_TRANSA then subm A 0 i (rows A) (cols A - i) else subm A i 0 (rows A - i) (cols A).
  Definition upd_B_from (flags : Z) (B : view) (j : Z) : view :=
    if has flags ARMAS_TRANSB then subm B j 0 (rows B - j) (cols B) else subm B 0 j (rows B) (cols B - j).

  (* src/blas/updtrmm.c:38-103 update_trm_naive *)
  Definition update_trm_naive (beta : T) (C : view) (alpha : T) (A B : view) (flags : Z) : M T unit :=
    let n := Z.min (rows C) (cols C) in
    if has flags ARMAS_UPPER then
      let flg := if has flags ARMAS_TRANSB then 0 else ARMAS_TRANS in
      for_up 0 n 1 (fun i =>
        let a0 := if has flags ARMAS_TRANSA then armas_column_unsafe A i else armas_row_unsafe A i in
        armas_mvmult_unsafe K fuel blas2min beta (subm C i i 1 (cols C - i)) alpha (upd_B_from flags B i) a0 flg)
    else
      let flg := if has flags ARMAS_TRANSA then ARMAS_TRANS else 0 in
      for_up 0 n 1 (fun i =>
        let b0 := if has flags ARMAS_TRANSB then armas_row_unsafe B i else armas_column_unsafe B i in
        armas_mvmult_unsafe K fuel blas2min beta (subm C i i (rows C - i) 1) alpha (upd_A_from flags A i) b0 flg).

  (* src/blas/updtrmm.c:105-214 update_upper_recursive.  The block at :171 has nb-nb/2 rows
     although a0 has nb/2 rows. *)
  Fixpoint update_upper_recursive (depth : nat) (beta : T) (C : view) (alpha : T) (A B : view) (flags min : Z)
      (ch : cache) : M T unit :=
    match depth with
    | O => fail
    | S d =>
      let nb := Z.min (rows C) (cols C) in
      if nb <? min then update_trm_naive beta C alpha A B flags
      else
        let h := nb / 2 in
        let sub C A B := if h <? min then update_trm_naive beta C alpha A B flags
                         else update_upper_recursive d beta C alpha A B flags min ch in
        sub (subm C 0 0 h h) (upd_A flags A 0 h) (upd_B flags B 0 h) ;;
        armas_mult_kernel K beta (subm C 0 h (nb - h) (nb - h)) alpha (upd_A flags A 0 h) (upd_B flags B h (nb - h)) flags ch ;;
        sub (subm C h h (nb - h) (nb - h)) (upd_A flags A h (nb - h)) (upd_B flags B h (nb - h)) ;;
        (if cols C <=? rows C then ret tt
         else armas_mult_kernel K beta (subm C 0 nb (rows C) (cols C - nb)) alpha (subm A 0 0 (rows A) (cols A))
                (upd_B_from flags B nb) flags ch)
    end.

  (* src/blas/updtrmm.c:216-326 update_lower_recursive *)
  Fixpoint update_lower_recursive (depth : nat) (beta : T) (C : view) (alpha : T) (A B : view) (flags min : Z)
      (ch : cache) : M T unit :=
    match depth with
    | O => fail
    | S d =>
      let nb := Z.min (rows C) (cols C) in
      if nb <? min then update_trm_naive beta C alpha A B flags
      else
        let h := nb / 2 in
        let sub C A B := if h <? min then update_trm_naive beta C alpha A B flags
                         else update_lower_recursive d beta C alpha A B flags min ch in
        sub (subm C 0 0 h h) (upd_A flags A 0 h) (upd_B flags B 0 h) ;;
        armas_mult_kernel K beta (subm C h 0 (nb - h) h) alpha (upd_A flags A h (nb - h)) (upd_B flags B 0 h) flags ch ;;
        sub (subm C h h (nb - h) (nb - h)) (upd_A flags A h (nb - h)) (upd_B flags B h (nb - h)) ;;
        (if rows C <=? cols C then ret tt
         else armas_mult_kernel K beta (subm C nb 0 (rows C - nb) (cols C)) alpha (upd_A_from flags A nb)
                (subm B 0 0 (rows B) (cols B)) flags ch)
    end.

  (* src/blas/updtrmm.c:335-431 update_trm_blk *)
  Definition update_trm_blk (beta : T) (C : view) (alpha : T) (A B : view) (flags min : Z) (ch : cache) : M T unit :=
    let n := Z.min (rows C) (cols C) in
    if has flags ARMAS_UPPER then
      for_step 0 n (NB ch) (fun i =>
        let nI := if n - i <? NB ch then n - i else NB ch in
        let Ad := upd_A flags A i nI in
        update_upper_recursive fuel beta (subm C i i nI nI) alpha Ad (upd_B flags B i nI) flags min ch ;;
        armas_mult_kernel K beta (subm C i (i + nI) nI (cols C - i - nI)) alpha Ad
          (if has flags ARMAS_TRANSB then subm B (i + nI) 0 (rows B - i - nI) (cols B)
           else subm B 0 (i + nI) (rows B) (cols B - i - nI)) flags ch)
    else
      for_step 0 n (NB ch) (fun i =>
        let nI := if n - i <? NB ch then n - i else NB ch in
        let Bd := upd_B flags B i nI in
        update_lower_recursive fuel beta (subm C i i nI nI) alpha (upd_A flags A i nI) Bd flags min ch ;;
        armas_mult_kernel K beta (subm C (i + nI) i (rows C - i - nI) nI) alpha
          (if has flags ARMAS_TRANSA then subm A 0 (i + nI) (rows A) (cols A - i - nI)
           else subm A (i + nI) 0 (rows A - i - nI) (cols A)) Bd flags ch).

  (* src/blas/updtrmm.c:476-489 the size test *)
  Definition upd_ok (C A B : view) (flags : Z) : bool :=
    let n1 := if has flags ARMAS_TRANSA then rows A else cols A in
    let m1 := if has flags ARMAS_TRANSA then cols A else rows A in
    let n2 := if has flags ARMAS_TRANSB then cols B else rows B in
    let m2 := if has flags ARMAS_TRANSB then rows B else cols B in
    (n1 =? n2) && (cols C =? m2) && (rows C =? m1).

  (* src/blas/updtrmm.c:459-524 armas_update_trm.  cb is the work buffer that
     armas_cbuf_select finds (None: no memory); conf->error is not modelled here. *)
  Definition armas_update_trm (optflags : Z) (cb : option cbuf) (mb nb kb p : Z) (beta : T) (C : view) (alpha : T)
      (A B : view) (flags : Z) : M T Z :=
    if (armas_size C =? 0) || (armas_size A =? 0) || (armas_size B =? 0) then ret 0
    else if negb (upd_ok C A B flags) then ret (- ARMAS_ESIZE)
    else if has optflags ARMAS_ONAIVE then update_trm_naive beta C alpha A B flags ;; ret 0
    else match cb with
    | None => ret (- ARMAS_EMEMORY)
    | Some cb =>
      let ch := elem_cache (armas_cache_setup2 cb mb nb kb p) p in
      (if optflags =? ARMAS_ORECURSIVE then
         if has flags ARMAS_UPPER then update_upper_recursive fuel beta C alpha A B flags blas2min ch
         else update_lower_recursive fuel beta C alpha A B flags blas2min ch
       else update_trm_blk beta C alpha A B flags blas2min ch) ;;
      ret 0
    end.

  (* src/blas/syrk.c:52-84 armas_update_sym; the size test is :66-73, ARMAS_TRANS is
     ARMAS_TRANSA (armas.h) *)
  Definition armas_update_sym (optflags : Z) (cb : option cbuf) (mb nb kb p : Z) (beta : T) (C : view) (alpha : T)
      (A : view) (flags : Z) : M T Z :=
    if (armas_size A =? 0) || (armas_size C =? 0) then ret 0
    else if negb (if has flags ARMAS_TRANS then (rows C =? cols A) && (rows C =? cols C)
                  else (rows C =? rows A) && (rows C =? cols C)) then ret (- ARMAS_ESIZE)
    else
      let uflags := Z.lor (Z.land flags (Z.lor ARMAS_UPPER ARMAS_LOWER))
                      (if has flags ARMAS_TRANS then ARMAS_TRANSA else ARMAS_TRANSB) in
      armas_update_trm optflags cb mb nb kb p beta C alpha A A uflags.
End UpdTrm.
