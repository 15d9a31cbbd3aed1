(* MSym.v: model of src/blas/symv.c, syr.c, syr2.c and updtrmv.c. *)
From Coq Require Import ZArith Bool.
From Verif Require Import Mem MView MFlags MCopy MNum MBlas1 MElem MBlas2.
Local Open Scope Z_scope.
Local Open Scope prog_scope.

Section Sym.
  Context {T : Type} (K : num T).
  Local Notation "x +' y" := (add K x y) (at level 50, left associativity).
  Local Notation "x *' y" := (mul K x y) (at level 40, left associativity).
  Local Notation subm := armas_submatrix_unsafe.
  Local Notation subv := armas_subvector_unsafe.
  (* fuel bounds every recursion; blas1min and blas2min are the fields of armas_env_t *)
  Variables (fuel : nat) (blas1min blas2min : Z).

  (* ---- symv.c ---- *)

  (* src/blas/symv.c:54-90 symv_unb *)
  Definition symv_unb (Y : view) (alpha : T) (A X : view) (flags : Z) : M T unit :=
    for_up 0 (cols A) 1 (fun j =>
      let a01 := if has flags ARMAS_LOWER then subm A (j + 1) j (rows A - j - 1) 1
                 else subm A j (j + 1) 1 (cols A - j - 1) in
      let x1 := subv X (j + 1) (rows A - j - 1) in
      let y1 := subv Y (j + 1) (rows A - j - 1) in
      y0 <- armas_get_at_unsafe Y j ;;
      x0 <- armas_get_at_unsafe X j ;;
      a00 <- armas_get_unsafe A j j ;;
      y0 <- armas_adot_unsafe K fuel blas1min (y0 +' alpha *' x0 *' a00) alpha x1 a01 ;;
      armas_set_at_unsafe Y j y0 ;;
      armas_axpby_unsafe K (one K) y1 (alpha *' x0) a01).

  (* src/blas/symv.c:108-150 symv_recursive *)
  Fixpoint symv_recursive (f : nat) (Y : view) (alpha : T) (A X : view) (flags minsz : Z) : M T unit :=
    match f with
    | O => fail
    | S f =>
      let N := armas_size Y in
      if N <? minsz then symv_unb Y alpha A X flags
      else
        let b := mat_partition_2x2 A (Z.quot N 2) (Z.quot N 2) PTop in
        let '(xT, xB) := vec_partition_2x1 X (Z.quot N 2) PTop in
        let '(yT, yB) := vec_partition_2x1 Y (Z.quot N 2) PTop in
        if has flags ARMAS_UPPER then
          symv_recursive f yT alpha (ATL b) xT flags minsz ;;
          armas_mvmult_unsafe K fuel blas2min (one K) yT alpha (ATR b) xB 0 ;;
          symv_recursive f yB alpha (ABR b) xB flags minsz ;;
          armas_mvmult_unsafe K fuel blas2min (one K) yB alpha (ATR b) xT ARMAS_TRANS
        else
          symv_recursive f yT alpha (ATL b) xT flags minsz ;;
          armas_mvmult_unsafe K fuel blas2min (one K) yT alpha (ABL b) xB ARMAS_TRANS ;;
          symv_recursive f yB alpha (ABR b) xB flags minsz ;;
          armas_mvmult_unsafe K fuel blas2min (one K) yB alpha (ABL b) xT 0
    end.

  (* src/blas/symv.c:152-161 armas_mvmult_sym_unsafe *)
  Definition armas_mvmult_sym_unsafe (beta : T) (y : view) (alpha : T) (A x : view) (flags : Z) : M T unit :=
    when (negb (eqb K beta (one K))) (armas_scale_unsafe K y beta) ;;
    symv_recursive fuel y alpha A x flags blas2min.

  (* src/blas/symv.c:184-223 armas_mvmult_sym *)
  Definition armas_mvmult_sym (beta : T) (y : view) (alpha : T) (A x : view) (flags : Z) : M T Z :=
    let nx := armas_size x in
    let ny := armas_size y in
    if (armas_size A =? 0) || (nx =? 0) || (ny =? 0) then ret 0
    else if negb (armas_isvector x) then ret (- ARMAS_ENEED_VECTOR)
    else if negb (armas_isvector y) then ret (- ARMAS_ENEED_VECTOR)
    else if negb ((cols A =? rows A) && (nx =? ny) && (nx =? cols A)) then ret (- ARMAS_ESIZE)
    else
      when (negb (eqb K beta (one K))) (armas_scale_unsafe K y beta) ;;
      symv_recursive fuel y alpha A x flags blas2min ;;
      ret 0.

  (* ---- updtrmv.c ---- *)

  (* src/blas/updtrmv.c:35-65 update_trmv_unb *)
  Definition update_trmv_unb (beta : T) (A : view) (alpha : T) (X Y : view) (flags : Z) : M T unit :=
    if Z.land flags (Z.lor ARMAS_UPPER ARMAS_LOWER) =? ARMAS_UPPER then
      for_up 0 (rows A) 1 (fun j =>
        dk <- armas_get_at_unsafe X j ;;
        armas_axpby_unsafe K beta (subm A j j 1 (cols A - j)) (alpha *' dk) (subv Y j (cols A - j)))
    else
      for_up 0 (cols A) 1 (fun j =>
        dk <- armas_get_at_unsafe Y j ;;
        armas_axpby_unsafe K beta (subm A j j (rows A - j) 1) (alpha *' dk) (subv X j (rows A - j))).

  (* src/blas/updtrmv.c:67-103 update_trmv_recursive *)
  Fixpoint update_trmv_recursive (f : nat) (beta : T) (A : view) (alpha : T) (X Y : view) (flags minsz : Z) : M T unit :=
    match f with
    | O => fail
    | S f =>
      if (minsz <=? 0) || (rows A <? minsz) || (cols A <? minsz) then update_trmv_unb beta A alpha X Y flags
      else
        let b := mat_partition_2x2 A (Z.quot (rows A) 2) (Z.quot (cols A) 2) PTop in
        let '(xT, xB) := vec_partition_2x1 X (Z.quot (rows A) 2) PTop in
        let '(yT, yB) := vec_partition_2x1 Y (Z.quot (cols A) 2) PTop in
        update_trmv_recursive f beta (ATL b) alpha xT yT flags minsz ;;
        (if has flags ARMAS_UPPER
         then armas_mvupdate_unsafe K fuel blas2min beta (ATR b) alpha xT yB
         else armas_mvupdate_unsafe K fuel blas2min beta (ABL b) alpha xB yT) ;;
        update_trmv_recursive f beta (ABR b) alpha xB yB flags minsz
    end.

  (* src/blas/updtrmv.c:105-115 armas_mvupdate_trm_unsafe *)
  Definition armas_mvupdate_trm_unsafe (beta : T) (A : view) (alpha : T) (x y : view) (flags : Z) : M T unit :=
    update_trmv_recursive fuel beta A alpha x y flags blas2min.

  (* src/blas/updtrmv.c:139-183 armas_mvupdate_trm; conf->optflags is an argument *)
  Definition armas_mvupdate_trm (optflags : Z) (beta : T) (A : view) (alpha : T) (x y : view) (flags : Z) : M T Z :=
    let nx := armas_size x in
    let ny := armas_size y in
    if (armas_size A =? 0) || (nx =? 0) || (ny =? 0) then ret 0
    else if negb (armas_isvector x) then ret (- ARMAS_ENEED_VECTOR)
    else if negb (armas_isvector y) then ret (- ARMAS_ENEED_VECTOR)
    else if negb (cols A =? ny) || negb (rows A =? nx) then ret (- ARMAS_ESIZE)
    else
      (if Z.land optflags (Z.lor ARMAS_ONAIVE ARMAS_ORECURSIVE) =? ARMAS_ORECURSIVE
       then update_trmv_recursive fuel beta A alpha x y flags blas2min
       else update_trmv_unb beta A alpha x y flags) ;;
      ret 0.

  (* src/blas/syr.c:58-67 armas_mvupdate_sym *)
  Definition armas_mvupdate_sym (optflags : Z) (beta : T) (A : view) (alpha : T) (x : view) (flags : Z) : M T Z :=
    armas_mvupdate_trm optflags beta A alpha x x flags.

  (* ---- syr2.c ---- *)

  (* src/blas/syr2.c:38-65 update_syr2_unb *)
  Definition update_syr2_unb (beta : T) (A : view) (alpha : T) (X Y : view) (flags : Z) : M T unit :=
    for_up 0 (cols A) 1 (fun j =>
      let a10 := if has flags ARMAS_UPPER then subm A j j 1 (cols A - j) else subm A j j (cols A - j) 1 in
      let y1 := subv Y j (cols A - j) in
      let x1 := subv X j (cols A - j) in
      x0 <- armas_get_at_unsafe x1 0 ;;
      y0 <- armas_get_at_unsafe y1 0 ;;
      armas_axpby_unsafe K beta a10 (alpha *' y0) x1 ;;
      armas_axpby_unsafe K (one K) a10 (alpha *' x0) y1).

  (* src/blas/syr2.c:67-104 update_syr2_recursive *)
  Fixpoint update_syr2_recursive (f : nat) (beta : T) (A : view) (alpha : T) (X Y : view) (flags minsz : Z) : M T unit :=
    match f with
    | O => fail
    | S f =>
      if rows A <? minsz then update_syr2_unb beta A alpha X Y flags
      else
        let b := mat_partition_2x2 A (Z.quot (rows A) 2) (Z.quot (rows A) 2) PTop in
        let '(xT, xB) := vec_partition_2x1 X (Z.quot (rows A) 2) PTop in
        let '(yT, yB) := vec_partition_2x1 Y (Z.quot (rows A) 2) PTop in
        update_syr2_recursive f beta (ATL b) alpha xT yT flags minsz ;;
        (if has flags ARMAS_UPPER then
           armas_mvupdate_unsafe K fuel blas2min beta (ATR b) alpha xT yB ;;
           armas_mvupdate_unsafe K fuel blas2min (one K) (ATR b) alpha yT xB
         else
           armas_mvupdate_unsafe K fuel blas2min beta (ABL b) alpha xB yT ;;
           armas_mvupdate_unsafe K fuel blas2min (one K) (ABL b) alpha yB xT) ;;
        update_syr2_recursive f beta (ABR b) alpha xB yB flags minsz
    end.

  (* src/blas/syr2.c:128-173 armas_mvupdate2_sym *)
  Definition armas_mvupdate2_sym (optflags : Z) (beta : T) (A : view) (alpha : T) (x y : view) (flags : Z) : M T Z :=
    let nx := armas_size x in
    let ny := armas_size y in
    if (armas_size A =? 0) || (nx =? 0) || (ny =? 0) then ret 0
    else if negb (armas_isvector x) then ret (- ARMAS_ENEED_VECTOR)
    else if negb (armas_isvector y) then ret (- ARMAS_ENEED_VECTOR)
    else if negb (cols A =? rows A) || negb (ny =? nx) then ret (- ARMAS_ESIZE)
    else
      (if optflags =? ARMAS_ONAIVE then update_syr2_unb beta A alpha x y flags
       else update_syr2_recursive fuel beta A alpha x y flags blas2min) ;;
      ret 0.
End Sym.
