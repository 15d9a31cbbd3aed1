(* MInv.v: model of the inverse of triangular matrices, src/lapack/invtrm.c. *)
From Coq Require Import ZArith Bool.
From Verif Require Import Mem MView MFlags MBase MCopy MNum MBlas1 MElem MBlas2 MTrm MGemm MTrsm MTrmm MLap MQr MQrMul.
Local Open Scope Z_scope.
Local Open Scope prog_scope.

Section Inv.
  Context {T : Type} (K : num T) (E : lenv).
  Local Notation one := (one K).

  (* invtrm.c:64-67 and :147-150; the state is the pair (err, conf->error) *)
  Definition inv_singular (s : Z * Z) : Z * Z :=
    if fst s =? 0 then (-1, ARMAS_ESINGULAR) else s.

  (* invtrm.c:61-76 and :144-159, one round of the unblocked loops: x is a01 (a21), D is A00 (A22),
     tri is ARMAS_UPPER (ARMAS_LOWER).  With ARMAS_UNIT a11val stays ONE (:51-52, :134-135). *)
  Definition inv_round (flags tri : Z) (a11 x D : view) (s : Z * Z) : M T (Z * Z) :=
    if has flags ARMAS_UNIT then
      l_mvmult_trm K E x (opp K one) D tri ;;
      ret s
    else
      a11val <- armas_get_unsafe a11 0 0 ;;
      if eqb K a11val (zero K) then ret (inv_singular s)
      else
        let a11val := div K one a11val in
        armas_set_unsafe a11 0 0 a11val ;;
        l_mvmult_trm K E x (opp K a11val) D tri ;;
        ret s.

  (* invtrm.c:38-83 unblk_inverse_upper; the result is err and conf->error *)
  Definition unblk_inverse_upper (A : view) (flags cerr : Z) : M T (Z * Z) :=
    r <- down_loop (e_fuel E) A 1 more
      (fun _ t s => inv_round flags ARMAS_UPPER (A11 t) (A01 t) (A00 t) s)
      (mat_partition_2x2 A 0 0 PTop) (0, cerr) ;;
    ret (snd r).

  (* invtrm.c:119-166 unblk_inverse_lower *)
  Definition unblk_inverse_lower (A : view) (flags cerr : Z) : M T (Z * Z) :=
    up_loop (e_fuel E) A 1
      (fun t s => inv_round flags ARMAS_LOWER (A11 t) (A21 t) (A22 t) s)
      (ATL (mat_partition_2x2 A 0 0 PBottom)) (0, cerr).

  (* invtrm.c:109-110 and :196-197: err of the blocked versions; u is what the unblocked one left *)
  Definition inv_err (err : Z) (u : Z * Z) : Z * Z :=
    (if negb (fst u =? 0) && (err =? 0) then -1 else err, snd u).

  (* invtrm.c:85-117 blk_inverse_upper *)
  Definition blk_inverse_upper (A : view) (flags lb cerr : Z) : M T (Z * Z) :=
    r <- down_loop (e_fuel E) A lb more
      (fun _ t s =>
         l_mult_trm K E (A01 t) one (A00 t) (Z.lor (Z.lor ARMAS_LEFT ARMAS_UPPER) flags) ;;
         l_solve_trm K E (A01 t) (opp K one) (A11 t) (Z.lor (Z.lor ARMAS_RIGHT ARMAS_UPPER) flags) ;;
         u <- unblk_inverse_upper (A11 t) flags (snd s) ;;
         ret (inv_err (fst s) u))
      (mat_partition_2x2 A 0 0 PTop) (0, cerr) ;;
    ret (snd r).

  (* invtrm.c:169-204 blk_inverse_lower *)
  Definition blk_inverse_lower (A : view) (flags lb cerr : Z) : M T (Z * Z) :=
    up_loop (e_fuel E) A lb
      (fun t s =>
         l_mult_trm K E (A21 t) one (A22 t) (Z.lor (Z.lor ARMAS_LEFT ARMAS_LOWER) flags) ;;
         l_solve_trm K E (A21 t) (opp K one) (A11 t) (Z.lor (Z.lor ARMAS_RIGHT ARMAS_LOWER) flags) ;;
         u <- unblk_inverse_lower (A11 t) flags (snd s) ;;
         ret (inv_err (fst s) u))
      (ATL (mat_partition_2x2 A 0 0 PBottom)) (0, cerr).

  (* invtrm.c:221-250 armas_inverse_trm; the result is the value returned and conf->error *)
  Definition armas_inverse_trm (A : view) (flags cerr : Z) : M T (Z * Z) :=
    if negb (rows A =? cols A) then ret (-1, ARMAS_ESIZE)
    else if rows A =? 0 then ret (0, cerr)
    else if (e_lb E =? 0) || (cols A <=? e_lb E) then
      if has flags ARMAS_LOWER then unblk_inverse_lower A flags cerr else unblk_inverse_upper A flags cerr
    else
      if has flags ARMAS_LOWER then blk_inverse_lower A flags (e_lb E) cerr else blk_inverse_upper A flags (e_lb E) cerr.
End Inv.
