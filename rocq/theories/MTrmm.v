(* MTrmm.v: model of src/blas/trmm_unb.c, trmm_rec.c, trmm_blk.c and trmm.c. *)
From Coq Require Import ZArith Bool.
From Verif Require Import Mem MView MFlags MBase MCopy MNum MBlas1 MElem MBlas2 MTrm MGemm MTrsm.
Local Open Scope Z_scope.
Local Open Scope prog_scope.

Section Trmm.
  Context {T : Type}.
  Variable K : num T.
  Local Notation "x *' y" := (mul K x y) (at level 40, left associativity).
  (* recursion depth and env->blas2min *)
  Variables (fuel : nat) (blas2min : Z).

  Local Notation subm := armas_submatrix_unsafe.

  (* ---- trmm_unb.c ---- *)

  (* scale = unit ? alpha : alpha*A[i,i], the same line in all eight functions (trmm_unb.c:56) *)
  Definition trmm_scale (alpha : T) (A : view) (un : bool) (i : Z) : M T T :=
    if un then ret alpha else d <- armas_get_unsafe A i i ;; ret (alpha *' d).

  (* the loop body after the views are made, the same lines in all eight functions
     (trmm_unb.c:56-57): b0 = scale*b0 + alpha*op(B1)*a0 *)
  Definition trmm_step (b0 : view) (alpha : T) (B1 a0 A : view) (un : bool) (i flags : Z) : M T unit :=
    scale <- trmm_scale alpha A un i ;;
    armas_mvmult_unsafe K fuel blas2min scale b0 alpha B1 a0 flags.

  (* after the loop (trmm_unb.c:59-63): if (scale != ONE) b0 *= scale *)
  Definition trmm_last (b0 : view) (alpha : T) (A : view) (un : bool) (i : Z) : M T unit :=
    scale <- trmm_scale alpha A un i ;;
    when (negb (eqb K scale (one K))) (armas_scale_unsafe K b0 scale).

  (* src/blas/trmm_unb.c:45-64 trmm_unb_lu *)
  Definition trmm_unb_lu (B A : view) (alpha : T) (un : bool) : M T unit :=
    for_up 0 (cols A - 1) 1 (fun i =>
      trmm_step (subm B i 0 1 (cols B)) alpha (subm B (i + 1) 0 (rows B - i - 1) (cols B)) (subm A i (i + 1) 1 (cols A - i - 1)) A un i ARMAS_TRANS) ;;
    trmm_last (subm B (cols A - 1) 0 1 (cols B)) alpha A un (cols A - 1).

  (* src/blas/trmm_unb.c:78-97 trmm_unb_lut *)
  Definition trmm_unb_lut (B A : view) (alpha : T) (un : bool) : M T unit :=
    for_down (cols A - 1) 1 (fun i =>
      trmm_step (subm B i 0 1 (cols B)) alpha (subm B 0 0 i (cols B)) (subm A 0 i i 1) A un i ARMAS_TRANS) ;;
    trmm_last (subm B 0 0 1 (cols B)) alpha A un 0.

  (* src/blas/trmm_unb.c:111-130 trmm_unb_ll *)
  Definition trmm_unb_ll (B A : view) (alpha : T) (un : bool) : M T unit :=
    for_down (cols A - 1) 1 (fun i =>
      trmm_step (subm B i 0 1 (cols B)) alpha (subm B 0 0 i (cols B)) (subm A i 0 1 i) A un i ARMAS_TRANS) ;;
    trmm_last (subm B 0 0 1 (cols B)) alpha A un 0.

  (* src/blas/trmm_unb.c:144-163 trmm_unb_llt *)
  Definition trmm_unb_llt (B A : view) (alpha : T) (un : bool) : M T unit :=
    for_up 0 (cols A - 1) 1 (fun i =>
      trmm_step (subm B i 0 1 (cols B)) alpha (subm B (i + 1) 0 (rows B - i - 1) (cols B)) (subm A (i + 1) i (cols A - i - 1) 1) A un i ARMAS_TRANS) ;;
    trmm_last (subm B (cols A - 1) 0 1 (cols B)) alpha A un (cols A - 1).

  (* src/blas/trmm_unb.c:177-196 trmm_unb_ru *)
  Definition trmm_unb_ru (B A : view) (alpha : T) (un : bool) : M T unit :=
    for_down (cols A - 1) 1 (fun i =>
      trmm_step (subm B 0 i (rows B) 1) alpha (subm B 0 0 (rows B) i) (subm A 0 i i 1) A un i 0) ;;
    trmm_last (subm B 0 0 (rows B) 1) alpha A un 0.

  (* src/blas/trmm_unb.c:210-228 trmm_unb_rl *)
  Definition trmm_unb_rl (B A : view) (alpha : T) (un : bool) : M T unit :=
    for_up 0 (cols A - 1) 1 (fun i =>
      trmm_step (subm B 0 i (rows B) 1) alpha (subm B 0 (i + 1) (rows B) (cols A - i - 1)) (subm A (i + 1) i (cols A - i - 1) 1) A un i 0) ;;
    trmm_last (subm B 0 (cols A - 1) (rows B) 1) alpha A un (cols A - 1).

  (* src/blas/trmm_unb.c:241-260 trmm_unb_rut *)
  Definition trmm_unb_rut (B A : view) (alpha : T) (un : bool) : M T unit :=
    for_up 0 (cols A - 1) 1 (fun i =>
      trmm_step (subm B 0 i (rows B) 1) alpha (subm B 0 (i + 1) (rows B) (cols A - i - 1)) (subm A i (i + 1) 1 (cols A - i - 1)) A un i 0) ;;
    trmm_last (subm B 0 (cols A - 1) (rows B) 1) alpha A un (cols A - 1).

  (* src/blas/trmm_unb.c:273-292 trmm_unb_rlt *)
  Definition trmm_unb_rlt (B A : view) (alpha : T) (un : bool) : M T unit :=
    for_down (cols A - 1) 1 (fun i =>
      trmm_step (subm B 0 i (rows B) 1) alpha (subm B 0 0 (rows B) i) (subm A i 0 1 i) A un i 0) ;;
    trmm_last (subm B 0 0 (rows B) 1) alpha A un 0.

  (* src/blas/trmm_unb.c:295-331 armas_trmm_unb *)
  Definition armas_trmm_unb (B : view) (alpha : T) (A : view) (flags : Z) : M T unit :=
    let un := has flags ARMAS_UNIT in
    if has flags ARMAS_RIGHT then
      if has flags ARMAS_UPPER then
        if has flags ARMAS_TRANSA then trmm_unb_rut B A alpha un else trmm_unb_ru B A alpha un
      else
        if has flags ARMAS_TRANSA then trmm_unb_rlt B A alpha un else trmm_unb_rl B A alpha un
    else
      if has flags ARMAS_UPPER then
        if has flags ARMAS_TRANSA then trmm_unb_lut B A alpha un else trmm_unb_lu B A alpha un
      else
        if has flags ARMAS_TRANSA then trmm_unb_llt B A alpha un else trmm_unb_ll B A alpha un.

  (* ---- trmm_rec.c ---- *)

  (* src/blas/trmm_rec.c:46-76 mult_left_forward *)
  Fixpoint mult_left_forward (f : nat) (B : view) (alpha : T) (A : view) (flags minsz : Z) (ch : cache) : M T unit :=
    match f with
    | O => fail
    | S f =>
      if cols A <? minsz then armas_trmm_unb B alpha A flags
      else
        let b := mat_partition_2x2 A (Z.quot (rows A) 2) (Z.quot (cols A) 2) PTop in
        let '(BT, BB) := mat_partition_2x1 B (Z.quot (cols A) 2) PTop in
        mult_left_forward f BT alpha (ATL b) flags minsz ch ;;
        (if has flags ARMAS_UPPER
         then armas_mult_kernel_nc K BT alpha (ATR b) BB 0 ch
         else armas_mult_kernel_nc K BT alpha (ABL b) BB ARMAS_TRANSA ch) ;;
        mult_left_forward f BB alpha (ABR b) flags minsz ch
    end.

  (* src/blas/trmm_rec.c:89-119 mult_left_backward *)
  Fixpoint mult_left_backward (f : nat) (B : view) (alpha : T) (A : view) (flags minsz : Z) (ch : cache) : M T unit :=
    match f with
    | O => fail
    | S f =>
      if cols A <? minsz then armas_trmm_unb B alpha A flags
      else
        let b := mat_partition_2x2 A (Z.quot (rows A) 2) (Z.quot (cols A) 2) PBottom in
        let '(BT, BB) := mat_partition_2x1 B (Z.quot (cols A) 2) PBottom in
        mult_left_backward f BB alpha (ABR b) flags minsz ch ;;
        (if has flags ARMAS_UPPER
         then armas_mult_kernel_nc K BB alpha (ATR b) BT ARMAS_TRANSA ch
         else armas_mult_kernel_nc K BB alpha (ABL b) BT 0 ch) ;;
        mult_left_backward f BT alpha (ATL b) flags minsz ch
    end.

  (* src/blas/trmm_rec.c:131-163 mult_right_forward *)
  Fixpoint mult_right_forward (f : nat) (B : view) (alpha : T) (A : view) (flags minsz : Z) (ch : cache) : M T unit :=
    match f with
    | O => fail
    | S f =>
      if cols A <? minsz then armas_trmm_unb B alpha A flags
      else
        let b := mat_partition_2x2 A (Z.quot (rows A) 2) (Z.quot (cols A) 2) PTop in
        let '(BL, BR) := mat_partition_1x2 B (Z.quot (cols A) 2) PTop in
        mult_right_forward f BL alpha (ATL b) flags minsz ch ;;
        (if has flags ARMAS_UPPER
         then armas_mult_kernel_nc K BL alpha BR (ATR b) ARMAS_TRANSB ch
         else armas_mult_kernel_nc K BL alpha BR (ABL b) 0 ch) ;;
        mult_right_forward f BR alpha (ABR b) flags minsz ch
    end.

  (* src/blas/trmm_rec.c:176-207 mult_right_backward *)
  Fixpoint mult_right_backward (f : nat) (B : view) (alpha : T) (A : view) (flags minsz : Z) (ch : cache) : M T unit :=
    match f with
    | O => fail
    | S f =>
      if cols A <? minsz then armas_trmm_unb B alpha A flags
      else
        let b := mat_partition_2x2 A (Z.quot (rows A) 2) (Z.quot (cols A) 2) PBottom in
        let '(BL, BR) := mat_partition_1x2 B (Z.quot (cols A) 2) PBottom in
        mult_right_backward f BR alpha (ABR b) flags minsz ch ;;
        (if has flags ARMAS_UPPER
         then armas_mult_kernel_nc K BR alpha BL (ATR b) 0 ch
         else armas_mult_kernel_nc K BR alpha BL (ABL b) ARMAS_TRANSB ch) ;;
        mult_right_backward f BL alpha (ATL b) flags minsz ch
    end.

  (* src/blas/trmm_rec.c:209-240 armas_trmm_recursive *)
  Definition armas_trmm_recursive (B : view) (alpha : T) (A : view) (flags : Z) (ch : cache) : M T unit :=
    let s := trsm_bits flags in
    if (s =? Z.lor ARMAS_RIGHT ARMAS_UPPER) || (s =? Z.lor ARMAS_RIGHT (Z.lor ARMAS_LOWER ARMAS_TRANSA)) then
      mult_right_backward fuel B alpha A flags blas2min ch
    else if (s =? Z.lor ARMAS_RIGHT ARMAS_LOWER) || (s =? Z.lor ARMAS_RIGHT (Z.lor ARMAS_UPPER ARMAS_TRANSA)) then
      mult_right_forward fuel B alpha A flags blas2min ch
    else if (s =? ARMAS_UPPER) || (s =? Z.lor ARMAS_LOWER ARMAS_TRANSA) then
      mult_left_forward fuel B alpha A flags blas2min ch
    else
      mult_left_backward fuel B alpha A flags blas2min ch.

  (* ---- trmm_blk.c ---- *)

  (* aflags of all eight functions (trmm_blk.c:60-61) *)
  Definition trmm_aflags (flags : Z) : Z :=
    if has flags ARMAS_ABSA then Z.lor ARMAS_ABSA ARMAS_ABSB else 0.

  (* src/blas/trmm_blk.c:48-77 trmm_blk_upper *)
  Definition trmm_blk_upper (B A : view) (alpha : T) (flags : Z) (ch : cache) : M T unit :=
    let nb := NB ch in
    for_step 0 (rows A) nb (fun i =>
      let nI := if rows A - i <? nb then rows A - i else nb in
      armas_trmm_recursive (subm B i 0 nI (cols B)) alpha (subm A i i nI nI) flags ch ;;
      armas_mult_kernel_nc K (subm B i 0 nI (cols B)) alpha (subm A i (i + nI) nI (rows A - i - nI)) (subm B (i + nI) 0 (rows B - i - nI) (cols B)) (trmm_aflags flags) ch).

  (* src/blas/trmm_blk.c:90-119 trmm_blk_u_trans *)
  Definition trmm_blk_u_trans (B A : view) (alpha : T) (flags : Z) (ch : cache) : M T unit :=
    let nb := NB ch in
    for_step_down (cols A) nb (fun i =>
      let nI := if i <? nb then i else nb in
      armas_trmm_recursive (subm B (i - nI) 0 nI (cols B)) alpha (subm A (i - nI) (i - nI) nI nI) flags ch ;;
      armas_mult_kernel_nc K (subm B (i - nI) 0 nI (cols B)) alpha (subm A 0 (i - nI) (i - nI) nI) (subm B 0 0 (i - nI) (cols B)) (Z.lor ARMAS_TRANSA (trmm_aflags flags)) ch).

  (* src/blas/trmm_blk.c:134-160 trmm_blk_lower *)
  Definition trmm_blk_lower (B A : view) (alpha : T) (flags : Z) (ch : cache) : M T unit :=
    let nb := NB ch in
    for_step_down (cols A) nb (fun i =>
      let nI := if i <? nb then i else nb in
      armas_trmm_recursive (subm B (i - nI) 0 nI (cols B)) alpha (subm A (i - nI) (i - nI) nI nI) flags ch ;;
      armas_mult_kernel_nc K (subm B (i - nI) 0 nI (cols B)) alpha (subm A (i - nI) 0 nI (i - nI)) (subm B 0 0 (i - nI) (cols B)) (trmm_aflags flags) ch).

  (* src/blas/trmm_blk.c:174-201 trmm_blk_l_trans *)
  Definition trmm_blk_l_trans (B A : view) (alpha : T) (flags : Z) (ch : cache) : M T unit :=
    let nb := NB ch in
    for_step 0 (cols A) nb (fun i =>
      let nI := if cols A - i <? nb then cols A - i else nb in
      armas_trmm_recursive (subm B i 0 nI (cols B)) alpha (subm A i i nI nI) flags ch ;;
      armas_mult_kernel_nc K (subm B i 0 nI (cols B)) alpha (subm A (i + nI) i (rows A - i - nI) nI) (subm B (i + nI) 0 (rows A - i - nI) (cols B)) (Z.lor ARMAS_TRANSA (trmm_aflags flags)) ch).

  (* src/blas/trmm_blk.c:216-242 trmm_blk_r_upper *)
  Definition trmm_blk_r_upper (B A : view) (alpha : T) (flags : Z) (ch : cache) : M T unit :=
    let nb := NB ch in
    for_step_down (cols A) nb (fun i =>
      let nI := if i <? nb then i else nb in
      armas_trmm_recursive (subm B 0 (i - nI) (rows B) nI) alpha (subm A (i - nI) (i - nI) nI nI) flags ch ;;
      armas_mult_kernel_nc K (subm B 0 (i - nI) (rows B) nI) alpha (subm B 0 0 (rows B) (i - nI)) (subm A 0 (i - nI) (i - nI) nI) (trmm_aflags flags) ch).

  (* src/blas/trmm_blk.c:257-283 trmm_blk_ru_trans *)
  Definition trmm_blk_ru_trans (B A : view) (alpha : T) (flags : Z) (ch : cache) : M T unit :=
    let nb := NB ch in
    for_step 0 (cols A) nb (fun i =>
      let nI := if cols A - i <? nb then cols A - i else nb in
      armas_trmm_recursive (subm B 0 i (rows B) nI) alpha (subm A i i nI nI) flags ch ;;
      armas_mult_kernel_nc K (subm B 0 i (rows B) nI) alpha (subm B 0 (i + nI) (rows B) (cols B - i - nI)) (subm A i (i + nI) nI (cols A - i - nI)) (Z.lor ARMAS_TRANSB (trmm_aflags flags)) ch).

  (* src/blas/trmm_blk.c:298-324 trmm_blk_r_lower *)
  Definition trmm_blk_r_lower (B A : view) (alpha : T) (flags : Z) (ch : cache) : M T unit :=
    let nb := NB ch in
    for_step 0 (cols A) nb (fun i =>
      let nI := if cols A - i <? nb then cols A - i else nb in
      armas_trmm_recursive (subm B 0 i (rows B) nI) alpha (subm A i i nI nI) flags ch ;;
      armas_mult_kernel_nc K (subm B 0 i (rows B) nI) alpha (subm B 0 (i + nI) (rows B) (cols B - i - nI)) (subm A (i + nI) i (cols A - i - nI) nI) (trmm_aflags flags) ch).

  (* src/blas/trmm_blk.c:339-366 trmm_blk_rl_trans *)
  Definition trmm_blk_rl_trans (B A : view) (alpha : T) (flags : Z) (ch : cache) : M T unit :=
    let nb := NB ch in
    for_step_down (cols A) nb (fun i =>
      let nI := if i <? nb then i else nb in
      armas_trmm_recursive (subm B 0 (i - nI) (rows B) nI) alpha (subm A (i - nI) (i - nI) nI nI) flags ch ;;
      armas_mult_kernel_nc K (subm B 0 (i - nI) (rows B) nI) alpha (subm B 0 0 (rows B) (i - nI)) (subm A (i - nI) 0 nI (i - nI)) (Z.lor ARMAS_TRANSB (trmm_aflags flags)) ch).

  (* src/blas/trmm_blk.c:368-407 armas_trmm_blk *)
  Definition armas_trmm_blk (B : view) (alpha : T) (A : view) (flags : Z) (ch : cache) : M T unit :=
    if has flags ARMAS_RIGHT then
      if has flags ARMAS_UPPER then
        if has flags ARMAS_TRANSA then trmm_blk_ru_trans B A alpha flags ch else trmm_blk_r_upper B A alpha flags ch
      else
        if has flags ARMAS_TRANSA then trmm_blk_rl_trans B A alpha flags ch else trmm_blk_r_lower B A alpha flags ch
    else
      if has flags ARMAS_UPPER then
        if has flags ARMAS_TRANSA then trmm_blk_u_trans B A alpha flags ch else trmm_blk_upper B A alpha flags ch
      else
        if has flags ARMAS_TRANSA then trmm_blk_l_trans B A alpha flags ch else trmm_blk_lower B A alpha flags ch.

  (* ---- trmm.c ---- *)

  (* src/blas/trmm.c:60-124 armas_mult_trm without accelerators; the arguments before B are
     conf->optflags, what armas_cbuf_select found, and mb, nb, kb of the environment,
     p = sizeof(DTYPE).  The size check (trmm.c:77-91) is the one of armas_solve_trm *)
  Definition armas_mult_trm (optflags : Z) (cb : option cbuf) (mb nb kb p : Z)
      (B : view) (alpha : T) (A : view) (flags : Z) : M T Z :=
    if (armas_size B =? 0) || (armas_size A =? 0) then ret 0
    else if negb (trsm_ok B A flags) then ret (- ARMAS_ESIZE)
    else if has optflags ARMAS_ONAIVE then armas_trmm_unb B alpha A flags ;; ret 0
    else match cb with
    | None => ret (- ARMAS_EMEMORY)
    | Some cb =>
      let ch := elem_cache (armas_cache_setup2 cb mb nb kb p) p in
      (if has optflags ARMAS_ORECURSIVE then armas_trmm_recursive B alpha A flags ch
       else armas_trmm_blk B alpha A flags ch) ;;
      ret 0
    end.

  (* src/blas/trmm.c:126-134 armas_mult_trm_unsafe *)
  Definition armas_mult_trm_unsafe (B : view) (alpha : T) (A : view) (flags : Z) (ch : cache) : M T unit :=
    armas_trmm_blk B alpha A flags ch.
End Trmm.
