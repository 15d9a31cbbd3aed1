(* MLuInv.v: model of the inverse of a general matrix from its LU factors, src/lapack/inv.c. *)
From Coq Require Import ZArith Bool.
From Verif Require Import Mem MView MFlags MBase MCopy MNum MBlas1 MElem MBlas2 MTrm MGemm MTrsm MTrmm MPivot MLap MQr MQrMul MInv.
Local Open Scope Z_scope.
Local Open Scope prog_scope.

Section LuInv.
  Context {T : Type} (K : num T) (E : lenv).
  Local Notation one := (one K).
  Local Notation zero := (zero K).

  (* inv.c:40-105 unblk_inverse_fused.  The state is (err, conf->error) and the columns AL not yet
     done; W is the data of the workspace *)
  Definition unblk_inverse_fused (A : view) (W : Z) (cerr : Z) : M T (Z * Z) :=
    r <- up_loop (e_fuel E) A 1
      (fun t st =>
         let s := fst st in
         let '(A0, a1, A2) := mat_repartition_1x2to1x3 (snd st) A 1 PTop in
         s' <- (a11val <- armas_get_unsafe (A11 t) 0 0 ;;
                if eqb K a11val zero then ret (inv_singular s)
                else
                  let a11val := div K one a11val in
                  armas_set_unsafe (A11 t) 0 0 a11val ;;
                  l_mvsolve_trm K E (A01 t) (opp K a11val) (A00 t) ARMAS_UPPER ;;
                  let l21 := armas_make (rows (A21 t)) (cols (A21 t)) (rows (A21 t)) W in
                  armas_copy l21 (A21 t) ;;
                  armas_scale K (A21 t) zero ;;
                  l_mvmult K E one a1 (opp K one) A2 l21 0 ;;
                  _ <- armas_get zero (A11 t) 0 0 ;;
                  ret s) ;;
         ret (s', fst (mat_continue_1x3to1x2 A0 a1 A PTop)))
      (ATL (mat_partition_2x2 A 0 0 PBottom)) ((0, cerr), fst (mat_partition_1x2 A 0 PBottom)) ;;
    ret (fst r).

  (* inv.c:139-140: err after the inverse of the diagonal block *)
  Definition luinv_err (err : Z) (u : Z * Z) : Z * Z :=
    (if (fst u <? 0) && (err =? 0) then fst u else err, snd u).

  (* inv.c:107-166 blk_inverse_fused *)
  Definition blk_inverse_fused (A : view) (W lb cerr : Z) : M T (Z * Z) :=
    r <- up_loop (e_fuel E) A lb
      (fun t st =>
         let s := fst st in
         let '(A0, A1, A2) := mat_repartition_1x2to1x3 (snd st) A lb PTop in
         u <- armas_inverse_trm K E (A11 t) ARMAS_UPPER (snd s) ;;
         l_mult_trm K E (A01 t) one (A11 t) (Z.lor ARMAS_RIGHT ARMAS_UPPER) ;;
         l_solve_trm K E (A01 t) (opp K one) (A00 t) (Z.lor ARMAS_LEFT ARMAS_UPPER) ;;
         let AB := mat_merge2x1 (A11 t) (A21 t) in
         let LB := armas_make (rows AB) (cols (A11 t)) (rows AB) W in
         armas_mcopy LB AB 0 ;;
         let '(L11, L21) := mat_partition_2x1 LB (rows (A11 t)) PTop in
         armas_mscale K (A11 t) zero (Z.lor ARMAS_LOWER ARMAS_UNIT) ;;
         armas_mscale K (A21 t) zero 0 ;;
         l_mult K E one A1 (opp K one) A2 L21 0 ;;
         l_solve_trm K E A1 one L11 (Z.lor (Z.lor ARMAS_LOWER ARMAS_UNIT) ARMAS_RIGHT) ;;
         ret (luinv_err (fst s) u, fst (mat_continue_1x3to1x2 A0 A1 A PTop)))
      (ATL (mat_partition_2x2 A 0 0 PBottom)) ((0, cerr), fst (mat_partition_1x2 A 0 PBottom)) ;;
    ret (fst r).

  (* inv.c:245-252: the block size, reduced when the workspace of wsz elements is small *)
  Definition luinv_lb (n wsz : Z) : Z :=
    if (n >? e_lb E) && (wsz <? e_lb E * n) then
      let lb := and_not3 (wsz / n) in if lb <? 32 then 0 else lb
    else e_lb E.

  (* inv.c:211-270 armas_luinverse_w; A, P and wb may be null.  The result is the value returned,
     conf->error and the workspace.  Not modelled: overflow of rows*lb*sizeof *)
  Definition armas_luinverse_w (A : option view) (P : option pivots) (wb : option wbuf) (cerr : Z) : M T (Z * Z * option wbuf) :=
    match A with
    | None => ret (-1, ARMAS_EINVAL, wb)
    | Some A =>
        if match wb with Some w => w_bytes w =? 0 | None => false end then
          let n := if (e_lb E >? 0) && (rows A >? e_lb E) then rows A * e_lb E else rows A in
          ret (0, cerr, match wb with Some w => Some (mkwbuf (w_buf w) (n * e_p E) (w_offset w)) | None => None end)
        else if negb (rows A =? cols A) || match P with Some P => negb (npivots P =? rows A) | None => false end then
          ret (-1, ARMAS_ESIZE, wb)
        else
          let bytes := match wb with Some w => armas_wbytes w | None => 0 end in
          if bytes <? rows A * e_p E then ret (-1, ARMAS_EWORK, wb)
          else
            let wsz := bytes / e_p E in
            let lb := luinv_lb (rows A) wsz in
            let W := match wb with Some w => armas_wptr w / e_p E | None => 0 end in
            s <- (if (lb =? 0) || (rows A <=? lb) then unblk_inverse_fused A W cerr
                  else blk_inverse_fused A W lb cerr) ;;
            match P with
            | Some P => if fst s =? 0 then armas_pivot A P (ARMAS_PIVOT_COLS + ARMAS_PIVOT_BACKWARD) ;; ret tt else ret tt
            | None => ret tt
            end ;;
            ret (fst s, snd s, match wb with Some w => Some (armas_wsetpos w (armas_wpos w)) | None => None end)
    end.

  (* inv.c:184-208 armas_luinverse; ptr is what calloc returns, None when it fails *)
  Definition armas_luinverse (ptr : option Z) (A : option view) (P : option pivots) (cerr : Z) : M T (Z * Z) :=
    r <- armas_luinverse_w A P (Some (mkwbuf 0 0 0)) cerr ;;
    if fst (fst r) <? 0 then ret (-1, snd (fst r))
    else
      let bytes := match snd r with Some w => w_bytes w | None => 0 end in
      if bytes >? 0 then
        match ptr with
        | None => ret (-1, ARMAS_EMEMORY)
        | Some b => r <- armas_luinverse_w A P (Some (armas_walloc b bytes)) cerr ;; ret (fst r)
        end
      else r <- armas_luinverse_w A P None cerr ;; ret (fst r).
End LuInv.
