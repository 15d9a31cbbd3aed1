(* MTrsm.v: model of src/blas/trsm_unb.c, trsm_rec.c, trsm_blk.c and trsm.c. *)
From Coq Require Import ZArith Bool.
From Verif Require Import Mem MView MFlags MBase MCopy MNum MBlas1 MElem MBlas2 MTrm MGemm.
Local Open Scope Z_scope.
Local Open Scope prog_scope.

(* flags & (ARMAS_UPPER|ARMAS_LOWER|ARMAS_RIGHT|ARMAS_TRANSA), the word the switches of
   trsm_rec.c and trsm_blk.c look at *)
Definition trsm_bits (flags : Z) : Z :=
  Z.land flags (Z.lor ARMAS_UPPER (Z.lor ARMAS_LOWER (Z.lor ARMAS_RIGHT ARMAS_TRANSA))).

Section Trsm.
  Context {T : Type}.
  Variable K : num T.
  Local Notation "x *' y" := (mul K x y) (at level 40, left associativity).
  (* recursion depth and env->blas2min *)
  Variables (fuel : nat) (blas2min : Z).

  Local Notation subm := armas_submatrix_unsafe.
  Local Notation minus1 := (opp K (one K)).

  (* ---- trsm_unb.c ---- *)

  (* the first right-hand side, the same lines in all eight functions (trsm_unb.c:63-66):
     scal = unit ? alpha : alpha/A[i,i]; if (scal != ONE) b1 *= scal *)
  Definition trsm_first (b1 : view) (alpha : T) (A : view) (un : bool) (i : Z) : M T unit :=
    scal <- (if un then ret alpha else d <- armas_get_unsafe A i i ;; ret (div K alpha d)) ;;
    when (negb (eqb K scal (one K))) (armas_scale_unsafe K b1 scal).

  (* the loop body after the views are made, the same lines in all eight functions
     (trsm_unb.c:73-75): b1 = alpha*b1 - B0*a1; if (!unit) b1 *= 1/A[j,j] *)
  Definition trsm_step (b1 : view) (alpha : T) (B0 a1 A : view) (un : bool) (j flags : Z) : M T unit :=
    armas_mvmult_unsafe K fuel blas2min alpha b1 minus1 B0 a1 flags ;;
    when (negb un) (d <- armas_get_unsafe A j j ;; armas_scale_unsafe K b1 (div K (one K) d)).

  (* src/blas/trsm_unb.c:51-77 solve_unblk_lu *)
  Definition solve_unblk_lu (B A : view) (alpha : T) (flags : Z) : M T unit :=
    let un := has flags ARMAS_UNIT in
    trsm_first (armas_row_unsafe B (cols A - 1)) alpha A un (cols A - 1) ;;
    for_down (cols A - 2) 0 (fun j =>
      trsm_step (armas_row_unsafe B j) alpha (subm B (j + 1) 0 (rows B - 1 - j) (cols B))
        (subm A j (j + 1) 1 (cols A - 1 - j)) A un j ARMAS_TRANS).

  (* src/blas/trsm_unb.c:93-120 solve_unblk_lut *)
  Definition solve_unblk_lut (B A : view) (alpha : T) (flags : Z) : M T unit :=
    let un := has flags ARMAS_UNIT in
    trsm_first (armas_row_unsafe B 0) alpha A un 0 ;;
    for_up 1 (cols A) 1 (fun j =>
      trsm_step (armas_row_unsafe B j) alpha (subm B 0 0 j (cols B)) (subm A 0 j j 1) A un j ARMAS_TRANS).

  (* src/blas/trsm_unb.c:134-161 solve_unblk_ll *)
  Definition solve_unblk_ll (B A : view) (alpha : T) (flags : Z) : M T unit :=
    let un := has flags ARMAS_UNIT in
    trsm_first (armas_row_unsafe B 0) alpha A un 0 ;;
    for_up 1 (cols A) 1 (fun j =>
      trsm_step (armas_row_unsafe B j) alpha (subm B 0 0 j (cols B)) (subm A j 0 1 j) A un j ARMAS_TRANS).

  (* src/blas/trsm_unb.c:175-201 solve_unblk_llt *)
  Definition solve_unblk_llt (B A : view) (alpha : T) (flags : Z) : M T unit :=
    let un := has flags ARMAS_UNIT in
    trsm_first (armas_row_unsafe B (cols A - 1)) alpha A un (cols A - 1) ;;
    for_down (cols A - 2) 0 (fun j =>
      trsm_step (armas_row_unsafe B j) alpha (subm B (j + 1) 0 (cols A - 1 - j) (cols B))
        (subm A (j + 1) j (cols A - 1 - j) 1) A un j ARMAS_TRANS).

  (* src/blas/trsm_unb.c:216-243 solve_unblk_ru *)
  Definition solve_unblk_ru (B A : view) (alpha : T) (flags : Z) : M T unit :=
    let un := has flags ARMAS_UNIT in
    trsm_first (armas_column_unsafe B 0) alpha A un 0 ;;
    for_up 1 (cols A) 1 (fun j =>
      trsm_step (armas_column_unsafe B j) alpha (subm B 0 0 (rows B) j) (subm A 0 j j 1) A un j 0).

  (* src/blas/trsm_unb.c:259-286 solve_unblk_rut *)
  Definition solve_unblk_rut (B A : view) (alpha : T) (flags : Z) : M T unit :=
    let un := has flags ARMAS_UNIT in
    trsm_first (armas_column_unsafe B (cols A - 1)) alpha A un (cols A - 1) ;;
    for_down (cols A - 2) 0 (fun j =>
      trsm_step (armas_column_unsafe B j) alpha (subm B 0 (j + 1) (rows B) (cols A - 1 - j))
        (subm A j (j + 1) 1 (cols A - 1 - j)) A un j 0).

  (* src/blas/trsm_unb.c:299-326 solve_unblk_rl *)
  Definition solve_unblk_rl (B A : view) (alpha : T) (flags : Z) : M T unit :=
    let un := has flags ARMAS_UNIT in
    trsm_first (armas_column_unsafe B (cols A - 1)) alpha A un (cols A - 1) ;;
    for_down (cols A - 2) 0 (fun j =>
      trsm_step (armas_column_unsafe B j) alpha (subm B 0 (j + 1) (rows B) (cols A - 1 - j))
        (subm A (j + 1) j (cols A - 1 - j) 1) A un j 0).

  (* src/blas/trsm_unb.c:340-367 solve_unblk_rlt *)
  Definition solve_unblk_rlt (B A : view) (alpha : T) (flags : Z) : M T unit :=
    let un := has flags ARMAS_UNIT in
    trsm_first (armas_column_unsafe B 0) alpha A un 0 ;;
    for_up 1 (cols A) 1 (fun j =>
      trsm_step (armas_column_unsafe B j) alpha (subm B 0 0 (rows B) j) (subm A j 0 1 j) A un j 0).

  (* src/blas/trsm_unb.c:370-416 armas_solve_unb *)
  Definition armas_solve_unb (B : view) (alpha : T) (A : view) (flags : Z) : M T unit :=
    let s := trm_bits flags in
    if has flags ARMAS_RIGHT then
      if s =? Z.lor ARMAS_UPPER ARMAS_TRANSA then solve_unblk_rut B A alpha flags
      else if s =? ARMAS_UPPER then solve_unblk_ru B A alpha flags
      else if s =? Z.lor ARMAS_LOWER ARMAS_TRANSA then solve_unblk_rlt B A alpha flags
      else solve_unblk_rl B A alpha flags
    else
      if s =? Z.lor ARMAS_UPPER ARMAS_TRANSA then solve_unblk_lut B A alpha flags
      else if s =? ARMAS_UPPER then solve_unblk_lu B A alpha flags
      else if s =? Z.lor ARMAS_LOWER ARMAS_TRANSA then solve_unblk_llt B A alpha flags
      else solve_unblk_ll B A alpha flags.

  (* ---- trsm_rec.c ---- *)

  (* src/blas/trsm_rec.c:51-81 solve_left_forward *)
  Fixpoint solve_left_forward (f : nat) (B : view) (alpha : T) (A : view) (flags minsz : Z) (ch : cache) : M T unit :=
    match f with
    | O => fail
    | S f =>
      if cols A <? minsz then armas_solve_unb B alpha A (Z.lor flags ARMAS_LEFT)
      else
        let b := mat_partition_2x2 A (Z.quot (rows A) 2) (Z.quot (cols A) 2) PTop in
        let '(BT, BB) := mat_partition_2x1 B (Z.quot (cols A) 2) PTop in
        solve_left_forward f BT alpha (ATL b) flags minsz ch ;;
        (if has flags ARMAS_UPPER
         then armas_mult_kernel_nc K BB minus1 (ATR b) BT ARMAS_TRANSA ch
         else armas_mult_kernel_nc K BB minus1 (ABL b) BT 0 ch) ;;
        solve_left_forward f BB alpha (ABR b) flags minsz ch
    end.

  (* src/blas/trsm_rec.c:100-129 solve_left_backward *)
  Fixpoint solve_left_backward (f : nat) (B : view) (alpha : T) (A : view) (flags minsz : Z) (ch : cache) : M T unit :=
    match f with
    | O => fail
    | S f =>
      if cols A <? minsz then armas_solve_unb B alpha A (Z.lor flags ARMAS_LEFT)
      else
        let b := mat_partition_2x2 A (Z.quot (rows A) 2) (Z.quot (cols A) 2) PBottom in
        let '(BT, BB) := mat_partition_2x1 B (Z.quot (cols A) 2) PBottom in
        solve_left_backward f BB alpha (ABR b) flags minsz ch ;;
        (if has flags ARMAS_UPPER
         then armas_mult_kernel_nc K BT minus1 (ATR b) BB 0 ch
         else armas_mult_kernel_nc K BT minus1 (ABL b) BB ARMAS_TRANSA ch) ;;
        solve_left_backward f BT alpha (ATL b) flags minsz ch
    end.

  (* src/blas/trsm_rec.c:135-164 solve_right_forward *)
  Fixpoint solve_right_forward (f : nat) (B : view) (alpha : T) (A : view) (flags minsz : Z) (ch : cache) : M T unit :=
    match f with
    | O => fail
    | S f =>
      if cols A <? minsz then armas_solve_unb B alpha A (Z.lor flags ARMAS_RIGHT)
      else
        let b := mat_partition_2x2 A (Z.quot (rows A) 2) (Z.quot (cols A) 2) PTop in
        let '(BL, BR) := mat_partition_1x2 B (Z.quot (cols A) 2) PTop in
        solve_right_forward f BL alpha (ATL b) flags minsz ch ;;
        (if has flags ARMAS_UPPER
         then armas_mult_kernel_nc K BR minus1 BL (ATR b) 0 ch
         else armas_mult_kernel_nc K BR minus1 BL (ABL b) ARMAS_TRANSB ch) ;;
        solve_right_forward f BR alpha (ABR b) flags minsz ch
    end.

  (* src/blas/trsm_rec.c:169-198 solve_right_backward *)
  Fixpoint solve_right_backward (f : nat) (B : view) (alpha : T) (A : view) (flags minsz : Z) (ch : cache) : M T unit :=
    match f with
    | O => fail
    | S f =>
      if cols A <? minsz then armas_solve_unb B alpha A (Z.lor flags ARMAS_RIGHT)
      else
        let b := mat_partition_2x2 A (Z.quot (rows A) 2) (Z.quot (cols A) 2) PBottom in
        let '(BL, BR) := mat_partition_1x2 B (Z.quot (cols A) 2) PBottom in
        solve_right_backward f BR alpha (ABR b) flags minsz ch ;;
        (if has flags ARMAS_UPPER
         then armas_mult_kernel_nc K BL minus1 BR (ATR b) ARMAS_TRANSB ch
         else armas_mult_kernel_nc K BL minus1 BR (ABL b) 0 ch) ;;
        solve_right_backward f BL alpha (ATL b) flags minsz ch
    end.

  (* src/blas/trsm_rec.c:200-230 armas_solve_recursive *)
  Definition armas_solve_recursive (B : view) (alpha : T) (A : view) (flags : Z) (ch : cache) : M T unit :=
    let s := trsm_bits flags in
    if (s =? Z.lor ARMAS_RIGHT ARMAS_UPPER) || (s =? Z.lor ARMAS_RIGHT (Z.lor ARMAS_LOWER ARMAS_TRANSA)) then
      solve_right_forward fuel B alpha A flags blas2min ch
    else if (s =? Z.lor ARMAS_RIGHT ARMAS_LOWER) || (s =? Z.lor ARMAS_RIGHT (Z.lor ARMAS_UPPER ARMAS_TRANSA)) then
      solve_right_backward fuel B alpha A flags blas2min ch
    else if (s =? ARMAS_UPPER) || (s =? Z.lor ARMAS_LOWER ARMAS_TRANSA) then
      solve_left_backward fuel B alpha A flags blas2min ch
    else
      solve_left_forward fuel B alpha A flags blas2min ch.

  (* ---- trsm_blk.c ---- *)

  (* for (i = hi; i > 0; i -= s); the loop variable is hi minus what has been subtracted *)
  Definition for_step_down (hi s : Z) (f : Z -> M T unit) : M T unit :=
    for_step 0 hi s (fun t => f (hi - t)).

  (* src/blas/trsm_blk.c:52-87 solve_blk_lu_llt *)
  Definition solve_blk_lu_llt (B A : view) (alpha : T) (flags : Z) (ch : cache) : M T unit :=
    let nb := NB ch in
    let nI := if nb <? cols A then nb else cols A in
    let cI := if nb <? cols A then cols A - nb else 0 in
    armas_solve_recursive (subm B cI 0 nI (cols B)) alpha (subm A cI cI nI nI) (Z.lor flags ARMAS_LEFT) ch ;;
    for_step_down (cols A - nb) nb (fun i =>
      let nI := if i <? nb then i else nb in
      let cI := if i <? nb then 0 else i - nb in
      let B0 := subm B i 0 (cols A - i) (cols B) in
      let B1 := subm B cI 0 nI (cols B) in
      let A0 := if has flags ARMAS_UPPER then subm A cI i nI (cols A - i) else subm A i cI (cols A - i) nI in
      armas_mult_kernel K alpha B1 minus1 A0 B0 flags ch ;;
      armas_solve_recursive B1 (one K) (subm A cI cI nI nI) (Z.lor flags ARMAS_LEFT) ch).

  (* src/blas/trsm_blk.c:107-141 solve_blk_lut_ll *)
  Definition solve_blk_lut_ll (B A : view) (alpha : T) (flags : Z) (ch : cache) : M T unit :=
    let nb := NB ch in
    let nI := if nb <? cols A then nb else cols A in
    armas_solve_recursive (subm B 0 0 nI (cols B)) alpha (subm A 0 0 nI nI) (Z.lor flags ARMAS_LEFT) ch ;;
    for_step nb (cols A) nb (fun i =>
      let nI := if i <? cols A - nb then nb else cols A - i in
      let B0 := subm B 0 0 i (cols B) in
      let B1 := subm B i 0 nI (cols B) in
      let A0 := if has flags ARMAS_UPPER then subm A 0 i i nI else subm A i 0 nI i in
      armas_mult_kernel K alpha B1 minus1 A0 B0 flags ch ;;
      armas_solve_recursive B1 (one K) (subm A i i nI nI) (Z.lor flags ARMAS_LEFT) ch).

  (* src/blas/trsm_blk.c:161-196 solve_blk_ru_rlt *)
  Definition solve_blk_ru_rlt (B A : view) (alpha : T) (flags : Z) (ch : cache) : M T unit :=
    let nb := NB ch in
    let tB := if has flags ARMAS_LOWER then ARMAS_TRANSB else 0 in
    let nI := if nb <? cols A then nb else cols A in
    armas_solve_recursive (subm B 0 0 (rows B) nI) alpha (subm A 0 0 nI nI) (Z.lor flags ARMAS_RIGHT) ch ;;
    for_step nb (cols A) nb (fun i =>
      let nI := if i <? cols A - nb then nb else cols A - i in
      let B0 := subm B 0 0 (rows B) i in
      let B1 := subm B 0 i (rows B) nI in
      let A0 := if has flags ARMAS_UPPER then subm A 0 i i nI else subm A i 0 nI i in
      armas_mult_kernel K alpha B1 minus1 B0 A0 tB ch ;;
      armas_solve_recursive B1 (one K) (subm A i i nI nI) (Z.lor flags ARMAS_RIGHT) ch).

  (* src/blas/trsm_blk.c:216-253 solve_blk_rut_rl.  The numbers of rows and columns of A0 are
     exchanged in the code, and here; the kernel does not look at them *)
  Definition solve_blk_rut_rl (B A : view) (alpha : T) (flags : Z) (ch : cache) : M T unit :=
    let nb := NB ch in
    let tB := if has flags ARMAS_UPPER then ARMAS_TRANSB else 0 in
    let nI := if nb <? cols A then nb else cols A in
    let cI := if nb <? cols A then cols A - nb else 0 in
    armas_solve_recursive (subm B 0 cI (rows B) nI) alpha (subm A cI cI nI nI) (Z.lor flags ARMAS_RIGHT) ch ;;
    for_step_down (cols A - nb) nb (fun i =>
      let nI := if i <? nb then i else nb in
      let cI := if i <? nb then 0 else i - nb in
      let B0 := subm B 0 i (rows B) (cols B - i) in
      let B1 := subm B 0 cI (rows B) nI in
      let A0 := if has flags ARMAS_UPPER then subm A cI i (rows A - i) nI else subm A i cI nI (cols A - i) in
      armas_mult_kernel K alpha B1 minus1 B0 A0 tB ch ;;
      armas_solve_recursive B1 (one K) (subm A cI cI nI nI) (Z.lor flags ARMAS_RIGHT) ch).

  (* src/blas/trsm_blk.c:255-283 armas_solve_blocked; the switch has no default *)
  Definition armas_solve_blocked (B : view) (alpha : T) (A : view) (flags : Z) (ch : cache) : M T unit :=
    let s := trsm_bits flags in
    if (s =? Z.lor ARMAS_RIGHT ARMAS_UPPER) || (s =? Z.lor ARMAS_RIGHT (Z.lor ARMAS_LOWER ARMAS_TRANSA)) then
      solve_blk_ru_rlt B A alpha flags ch
    else if (s =? Z.lor ARMAS_RIGHT ARMAS_LOWER) || (s =? Z.lor ARMAS_RIGHT (Z.lor ARMAS_UPPER ARMAS_TRANSA)) then
      solve_blk_rut_rl B A alpha flags ch
    else if (s =? ARMAS_UPPER) || (s =? Z.lor ARMAS_LOWER ARMAS_TRANSA) then
      solve_blk_lu_llt B A alpha flags ch
    else if (s =? ARMAS_LOWER) || (s =? Z.lor ARMAS_UPPER ARMAS_TRANSA) then
      solve_blk_lut_ll B A alpha flags ch
    else ret tt.

  (* ---- trsm.c ---- *)

  (* the size check, src/blas/trsm.c:79-88 *)
  Definition trsm_ok (B A : view) (flags : Z) : bool :=
    if Z.land flags (Z.lor ARMAS_LEFT ARMAS_RIGHT) =? ARMAS_RIGHT
    then (cols B =? rows A) && (cols A =? rows A)
    else (cols A =? rows A) && (cols A =? rows B).

  (* src/blas/trsm.c:61-126 armas_solve_trm without accelerators; the arguments before B are
     conf->optflags, what armas_cbuf_select found, and mb, nb, kb of the environment, p = sizeof(DTYPE) *)
  Definition armas_solve_trm (optflags : Z) (cb : option cbuf) (mb nb kb p : Z)
      (B : view) (alpha : T) (A : view) (flags : Z) : M T Z :=
    if (armas_size B =? 0) || (armas_size A =? 0) then ret 0
    else if negb (trsm_ok B A flags) then ret (- ARMAS_ESIZE)
    else if has optflags ARMAS_ONAIVE then armas_solve_unb B alpha A flags ;; ret 0
    else match cb with
    | None => ret (- ARMAS_EMEMORY)
    | Some cb =>
      let ch := elem_cache (armas_cache_setup2 cb mb nb kb p) p in
      (if has optflags ARMAS_ORECURSIVE then armas_solve_recursive B alpha A flags ch
       else armas_solve_blocked B alpha A flags ch) ;;
      ret 0
    end.
End Trsm.
