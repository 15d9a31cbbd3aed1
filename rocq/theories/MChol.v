(* MChol.v: model of the unpivoted Cholesky factorization, src/lapack/chol.c. *)
From Coq Require Import ZArith Bool.
From Verif Require Import Mem MView MFlags MBase MCopy MNum MBlas1 MElem MBlas2 MTrm MSym MGemm MTrsm MUpdTrm MLap.
Local Open Scope Z_scope.
Local Open Scope prog_scope.

Section Chol.
  Context {T : Type} (K : num T) (E : lenv).
  Local Notation one := (one K).

  (* the calls with the configuration filled in *)
  Definition l_mvupdate_sym (beta : T) (A : view) (alpha : T) (x : view) (flags : Z) : M T Z :=
    armas_mvupdate_sym K (e_fuel E) (e_b2 E) (e_opt E) beta A alpha x flags.
  Definition l_update_sym (beta : T) (C : view) (alpha : T) (A : view) (flags : Z) : M T Z :=
    armas_update_sym K (e_fuel E) (e_b2 E) (e_opt E) (e_cb E) (e_mb E) (e_nb E) (e_kb E) (e_p E) beta C alpha A flags.

  (* src/lapack/chol.c:68-73 and :164-169: the first bad pivot sets conf->error and err.  The
     state is the pair (err, conf->error). *)
  Definition bad_pivot (a : T) (s : Z * Z) : Z * Z :=
    if fst s =? 0 then (-1, if ltb K a (zero K) then ARMAS_ENEGATIVE else ARMAS_ESINGULAR) else s.

  (* src/lapack/chol.c:105-107, :123-125, :199-201, :216-218: err of the blocked versions; the
     first component of u is the value the unblocked version returned *)
  Definition keep_err (err : Z) (u : Z * Z) : Z * Z :=
    (if negb (fst u =? 0) then (if err =? 0 then -1 else err) else err, snd u).

  (* src/lapack/chol.c:35-82 unblk_cholfactor_lower; the result is err and conf->error.
     a11val >= 0.0 is "not less than zero": there is no NaN in the model.  Of the calls only
     their effect on conf->error in case of failure is not modelled; none fails here. *)
  Definition unblk_cholfactor_lower (A : view) (cerr : Z) : M T (Z * Z) :=
    r <- down_loop (e_fuel E) A 1 more
      (fun _ t (s : Z * Z) =>
         a11val <- armas_get (zero K) (A11 t) 0 0 ;;
         if negb (ltb K a11val (zero K)) then
           let a11val := sqrt K a11val in
           armas_set (A11 t) 0 0 a11val ;;
           armas_scale K (A21 t) (div K one a11val) ;;
           l_mvupdate_sym one (A22 t) (opp K one) (A21 t) ARMAS_LOWER ;;
           ret s
         else ret (bad_pivot a11val s))
      (mat_partition_2x2 A 0 0 PTop) (0, cerr) ;;
    ret (snd r).

  (* src/lapack/chol.c:84-128 blk_cholfactor_lower *)
  Definition blk_cholfactor_lower (A : view) (lb : Z) (cerr : Z) : M T (Z * Z) :=
    r <- down_loop (e_fuel E) A lb (more_than lb)
      (fun _ t (s : Z * Z) =>
         u <- unblk_cholfactor_lower (A11 t) (snd s) ;;
         let s := keep_err (fst s) u in
         l_solve_trm K E (A21 t) one (A11 t) (Z.lor ARMAS_RIGHT (Z.lor ARMAS_LOWER ARMAS_TRANSA)) ;;
         l_update_sym one (A22 t) (opp K one) (A21 t) ARMAS_LOWER ;;
         ret s)
      (mat_partition_2x2 A 0 0 PTop) (0, cerr) ;;
    let s := snd r in
    if rows (ABR (fst r)) >? 0 then
      u <- unblk_cholfactor_lower (ABR (fst r)) (snd s) ;;
      ret (keep_err (fst s) u)
    else ret s.

  (* src/lapack/chol.c:131-178 unblk_cholfactor_upper *)
  Definition unblk_cholfactor_upper (A : view) (cerr : Z) : M T (Z * Z) :=
    r <- down_loop (e_fuel E) A 1 more
      (fun _ t (s : Z * Z) =>
         a11val <- armas_get (zero K) (A11 t) 0 0 ;;
         if ltb K (zero K) a11val then
           let a11val := sqrt K a11val in
           armas_set (A11 t) 0 0 a11val ;;
           armas_scale K (A12 t) (div K one a11val) ;;
           l_mvupdate_sym one (A22 t) (opp K one) (A12 t) ARMAS_UPPER ;;
           ret s
         else ret (bad_pivot a11val s))
      (mat_partition_2x2 A 0 0 PTop) (0, cerr) ;;
    ret (snd r).

  (* src/lapack/chol.c:180-221 blk_cholfactor_upper *)
  Definition blk_cholfactor_upper (A : view) (lb : Z) (cerr : Z) : M T (Z * Z) :=
    r <- down_loop (e_fuel E) A lb (more_than lb)
      (fun _ t (s : Z * Z) =>
         u <- unblk_cholfactor_upper (A11 t) (snd s) ;;
         let s := keep_err (fst s) u in
         l_solve_trm K E (A12 t) one (A11 t) (Z.lor ARMAS_LEFT (Z.lor ARMAS_UPPER ARMAS_TRANSA)) ;;
         l_update_sym one (A22 t) (opp K one) (A12 t) (Z.lor ARMAS_UPPER ARMAS_TRANSA) ;;
         ret s)
      (mat_partition_2x2 A 0 0 PTop) (0, cerr) ;;
    let s := snd r in
    if rows (ABR (fst r)) >? 0 then
      u <- unblk_cholfactor_upper (ABR (fst r)) (snd s) ;;
      ret (keep_err (fst s) u)
    else ret s.

  (* src/lapack/chol.c:343-395 armas_cholfactor_w with P == ARMAS_NOPIVOT, which is what
     armas_cholfactor (:237-262) and armas_cholesky (:282-292) call for it.  The result is the value
     returned and conf->error. *)
  Definition armas_cholesky (A : view) (flags : Z) (cerr : Z) : M T (Z * Z) :=
    if negb (rows A =? cols A) then ret (- ARMAS_ESIZE, ARMAS_ESIZE)
    else if (e_lb E =? 0) || (cols A <=? e_lb E) then
      if has flags ARMAS_LOWER then unblk_cholfactor_lower A cerr else unblk_cholfactor_upper A cerr
    else
      if has flags ARMAS_LOWER then blk_cholfactor_lower A (e_lb E) cerr else blk_cholfactor_upper A (e_lb E) cerr.

  (* src/lapack/chol.c:425-455 armas_cholsolve with P == ARMAS_NOPIVOT *)
  Definition armas_cholsolve (B A : view) (flags : Z) : M T Z :=
    if negb ((rows B =? cols A) && (rows A =? cols A)) then ret (-1)
    else
      (if has flags ARMAS_LOWER then
         l_solve_trm K E B one A (Z.lor ARMAS_LEFT ARMAS_LOWER) ;;
         l_solve_trm K E B one A (Z.lor ARMAS_LEFT (Z.lor ARMAS_LOWER ARMAS_TRANSA))
       else
         l_solve_trm K E B one A (Z.lor ARMAS_LEFT (Z.lor ARMAS_UPPER ARMAS_TRANSA)) ;;
         l_solve_trm K E B one A (Z.lor ARMAS_LEFT ARMAS_UPPER)) ;;
      ret 0.
End Chol.
