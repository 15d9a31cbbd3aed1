(* MCompat3.v: model of the BLAS and CBLAS names for matrix-matrix operations, src/compat/{gemm,symm,syrk,
   syr2k,trmm,trsm}.c.  Characters and enumerators are their integer values, matrices are the
   addresses of their first elements.  The functions return nothing: the results of the armas
   functions are dropped.  cblas_syrk and cblas_syr2k are left out: no header defines these names
   and they do not compile (conf is passed by value). *)
From Coq Require Import ZArith Bool.
From Verif Require Import Mem MView MFlags MBase MCopy MNum MBlas1 MElem MBlas2 MTrm MGemm MTrsm MTrmm MSymm MUpdTrm MLap MSyr2k.
Local Open Scope Z_scope.
Local Open Scope prog_scope.

(* src/include/compat.h:36-40 *)
Definition CblasRowMajor : Z := 101.
Definition CblasColMajor : Z := 102.
Definition CblasNoTrans : Z := 111.
Definition CblasTrans : Z := 112.
Definition CblasConjTrans : Z := 113.
Definition CblasUpper : Z := 121.
Definition CblasLower : Z := 122.
Definition CblasNonUnit : Z := 131.
Definition CblasUnit : Z := 132.
Definition CblasLeft : Z := 141.
Definition CblasRight : Z := 142.

(* toupper of the C locale, ASCII *)
Definition toupper (c : Z) : Z := if (97 <=? c) && (c <=? 122) then c - 32 else c.
Definition chr_L : Z := 76.
Definition chr_R : Z := 82.
Definition chr_T : Z := 84.
Definition chr_U : Z := 85.

(* flags |= bit *)
Definition flag (b : bool) (bit : Z) : Z := if b then bit else 0.

Section Compat3.
  (* E: armas_conf_default() and the environment *)
  Context {T : Type} (K : num T) (E : lenv).

  (* the result of the call is dropped *)
  Definition drop (c : M T Z) : M T unit := _ <- c ;; ret tt.

  (* src/compat/gemm.c:27-45 *)
  Definition blas_gemmf (transa transb m n k : Z) (alpha : T) (A lda B ldb : Z) (beta : T) (C ldc : Z) : M T unit :=
    let c := armas_make m n ldc C in
    let a := armas_make m k lda A in
    let b := armas_make k n ldb B in
    let flags := Z.lor (flag (toupper transa =? chr_T) ARMAS_TRANSA) (flag (toupper transb =? chr_T) ARMAS_TRANSB) in
    drop (armas_mult K (e_cb E) (e_mb E) (e_nb E) (e_kb E) (e_p E) beta c alpha a b flags).

  (* src/compat/gemm.c:49-96 *)
  Definition cblas_gemm (order transa transb M N Kk : Z) (alpha : T) (A lda B ldb : Z) (beta : T) (C ldc : Z) : Mem.M T unit :=
    if order =? CblasColMajor then
      let fa := flag (transa =? CblasTrans) ARMAS_TRANSA in
      let Aa := if transa =? CblasTrans then armas_make Kk M lda A else armas_make M Kk lda A in
      let fb := flag (transb =? CblasTrans) ARMAS_TRANSB in
      let Ba := if transb =? CblasTrans then armas_make N Kk ldb B else armas_make Kk N ldb B in
      let Ca := armas_make M N ldc C in
      drop (armas_mult K (e_cb E) (e_mb E) (e_nb E) (e_kb E) (e_p E) beta Ca alpha Aa Ba (Z.lor fa fb))
    else if order =? CblasRowMajor then
      let fa := flag (transa =? CblasNoTrans) ARMAS_TRANSA in
      let Aa := if transa =? CblasNoTrans then armas_make M Kk lda A else armas_make Kk M lda A in
      let fb := flag (transb =? CblasNoTrans) ARMAS_TRANSB in
      let Ba := if transb =? CblasNoTrans then armas_make Kk N ldb B else armas_make N Kk ldb B in
      let Ca := armas_make N M ldc C in
      drop (armas_mult K (e_cb E) (e_mb E) (e_nb E) (e_kb E) (e_p E) beta Ca alpha Aa Ba (Z.lor fa fb))
    else ret tt.

  (* src/compat/symm.c:27-52 *)
  Definition blas_symmf (side uplo m n : Z) (alpha : T) (A lda B ldb : Z) (beta : T) (C ldc : Z) : M T unit :=
    let c := armas_make m n ldc C in
    let b := armas_make m n ldb B in
    let right := toupper side =? chr_R in
    let a := if right then armas_make n n lda A else armas_make m m lda A in
    let flags := Z.lor (if right then ARMAS_RIGHT else ARMAS_LEFT)
                       (if toupper uplo =? chr_L then ARMAS_LOWER else ARMAS_UPPER) in
    drop (armas_mult_sym K (e_cb E) (e_mb E) (e_nb E) (e_kb E) (e_p E) beta c alpha a b flags).

  (* src/compat/symm.c:56-93 *)
  Definition cblas_symm (order side uplo M N : Z) (alpha : T) (A lda B ldb : Z) (beta : T) (C ldc : Z) : Mem.M T unit :=
    let right := side =? CblasRight in
    if order =? CblasRowMajor then
      let Aa := if right then armas_make N N lda A else armas_make M M lda A in
      let Ba := armas_make N M ldb B in
      let Ca := armas_make N M ldc C in
      let flags := Z.lor (if right then ARMAS_LEFT else ARMAS_RIGHT)
                         (if uplo =? CblasUpper then ARMAS_LOWER else ARMAS_UPPER) in
      drop (armas_mult_sym K (e_cb E) (e_mb E) (e_nb E) (e_kb E) (e_p E) beta Ca alpha Aa Ba flags)
    else
      let Aa := if right then armas_make M M lda A else armas_make N N lda A in
      let Ba := armas_make M N ldb B in
      let Ca := armas_make M N ldc C in
      let flags := Z.lor (if right then ARMAS_RIGHT else ARMAS_LEFT)
                         (if uplo =? CblasUpper then ARMAS_UPPER else ARMAS_LOWER) in
      drop (armas_mult_sym K (e_cb E) (e_mb E) (e_nb E) (e_kb E) (e_p E) beta Ca alpha Aa Ba flags).

  (* src/compat/syrk.c:27-45 *)
  Definition blas_syrkf (uplo trans n k : Z) (alpha : T) (A lda : Z) (beta : T) (C ldc : Z) : M T unit :=
    let t := toupper trans =? chr_T in
    let flags := Z.lor (if toupper uplo =? chr_L then ARMAS_LOWER else ARMAS_UPPER) (flag t ARMAS_TRANS) in
    let c := armas_make n n ldc C in
    let a := if t then armas_make k n lda A else armas_make n k lda A in
    drop (armas_update_sym K (e_fuel E) (e_b2 E) (e_opt E) (e_cb E) (e_mb E) (e_nb E) (e_kb E) (e_p E) beta c alpha a flags).

  (* src/compat/syr2k.c:27-48 (exported as ssyrk2_ and dsyrk2_); b is given the row stride of a *)
  Definition blas_syr2kf (uplo trans n k : Z) (alpha : T) (A lda B ldb : Z) (beta : T) (C ldc : Z) : M T unit :=
    let t := toupper trans =? chr_T in
    let flags := Z.lor (if toupper uplo =? chr_L then ARMAS_LOWER else ARMAS_UPPER) (flag t ARMAS_TRANS) in
    let c := armas_make n n ldc C in
    let a := if t then armas_make k n lda A else armas_make n k lda A in
    let b := if t then armas_make k n lda B else armas_make n k lda B in
    drop (armas_update2_sym K E beta c alpha a b flags).

  (* src/compat/trmm.c:27-54, trsm.c:27-54: the operands and the flags of both *)
  Definition f_trm_operands (side uplo transa diag m n A lda B ldb : Z) : view * view * Z :=
    let right := toupper side =? chr_R in
    (armas_make m n ldb B, (if right then armas_make n n lda A else armas_make m m lda A),
     Z.lor (Z.lor (if right then ARMAS_RIGHT else ARMAS_LEFT) (if toupper uplo =? chr_L then ARMAS_LOWER else ARMAS_UPPER))
           (Z.lor (flag (toupper transa =? chr_T) ARMAS_TRANS) (flag (toupper diag =? chr_U) ARMAS_UNIT))).

  (* src/compat/trmm.c:58-105, trsm.c:58-105; None: an unknown order *)
  Definition c_trm_operands (order side uplo transa diag M N A lda B ldb : Z) : option (view * view * Z) :=
    let right := side =? CblasRight in let upper := uplo =? CblasUpper in
    if order =? CblasColMajor then
      Some (armas_make M N ldb B, (if right then armas_make N N lda A else armas_make M M lda A),
        Z.lor (Z.lor (if right then ARMAS_RIGHT else ARMAS_LEFT) (if upper then ARMAS_UPPER else ARMAS_LOWER))
              (Z.lor (flag (diag =? CblasUnit) ARMAS_UNIT) (flag (transa =? CblasTrans) ARMAS_TRANSA)))
    else if order =? CblasRowMajor then
      Some (armas_make N M ldb B, (if right then armas_make M M lda A else armas_make N N lda A),
        Z.lor (Z.lor (if right then ARMAS_LEFT else ARMAS_RIGHT) (if upper then ARMAS_LOWER else ARMAS_UPPER))
              (Z.lor (flag (diag =? CblasUnit) ARMAS_UNIT) (flag (transa =? CblasNoTrans) ARMAS_TRANSA)))
    else None.

  (* src/compat/trmm.c:27-54 *)
  Definition blas_trmmf (side uplo transa diag m n : Z) (alpha : T) (A lda B ldb : Z) : M T unit :=
    let '(b, a, flags) := f_trm_operands side uplo transa diag m n A lda B ldb in
    drop (armas_mult_trm K (e_fuel E) (e_b2 E) (e_opt E) (e_cb E) (e_mb E) (e_nb E) (e_kb E) (e_p E) b alpha a flags).

  (* src/compat/trmm.c:58-105 *)
  Definition cblas_trmm (order side uplo transa diag M N : Z) (alpha : T) (A lda B ldb : Z) : Mem.M T unit :=
    match c_trm_operands order side uplo transa diag M N A lda B ldb with
    | Some (b, a, flags) =>
        drop (armas_mult_trm K (e_fuel E) (e_b2 E) (e_opt E) (e_cb E) (e_mb E) (e_nb E) (e_kb E) (e_p E) b alpha a flags)
    | None => ret tt
    end.

  (* src/compat/trsm.c:27-54 *)
  Definition blas_trsmf (side uplo transa diag m n : Z) (alpha : T) (A lda B ldb : Z) : M T unit :=
    let '(b, a, flags) := f_trm_operands side uplo transa diag m n A lda B ldb in
    drop (armas_solve_trm K (e_fuel E) (e_b2 E) (e_opt E) (e_cb E) (e_mb E) (e_nb E) (e_kb E) (e_p E) b alpha a flags).

  (* src/compat/trsm.c:58-105 *)
  Definition cblas_trsm (order side uplo transa diag M N : Z) (alpha : T) (A lda B ldb : Z) : Mem.M T unit :=
    match c_trm_operands order side uplo transa diag M N A lda B ldb with
    | Some (b, a, flags) =>
        drop (armas_solve_trm K (e_fuel E) (e_b2 E) (e_opt E) (e_cb E) (e_mb E) (e_nb E) (e_kb E) (e_p E) b alpha a flags)
    | None => ret tt
    end.
End Compat3.
