(* MInvSpd.v: model of the inverse of a positive definite matrix from its Cholesky factor, src/lapack/invspd.c. *)
From Coq Require Import ZArith Bool.
From Verif Require Import Mem MView MFlags MBase MCopy MNum MBlas1 MElem MBlas2 MSym MTrm MGemm MTrsm MTrmm MSymm MUpdTrm MPivot MLap MQr MQrMul MLuInv.
Local Open Scope Z_scope.
Local Open Scope prog_scope.

Section InvSpd.
  Context {T : Type} (K : num T) (E : lenv).
  Local Notation one := (one K).
  Local Notation zero := (zero K).

  (* the calls with the configuration filled in *)
  Definition l_mvmult_sym (beta : T) (y : view) (alpha : T) (A x : view) (flags : Z) : M T Z :=
    armas_mvmult_sym K (e_fuel E) (e_b1 E) (e_b2 E) beta y alpha A x flags.
  Definition l_mult_sym (beta : T) (C : view) (alpha : T) (A B : view) (flags : Z) : M T Z :=
    armas_mult_sym K (e_cb E) (e_mb E) (e_nb E) (e_kb E) (e_p E) beta C alpha A B flags.
  Definition l_update_trm (beta : T) (C : view) (alpha : T) (A B : view) (flags : Z) : M T Z :=
    armas_update_trm K (e_fuel E) (e_b2 E) (e_opt E) (e_cb E) (e_mb E) (e_nb E) (e_kb E) (e_p E) beta C alpha A B flags.

  (* invspd.c:57-74 (lower, a = a21) and :168-185 (upper, a = a12), one round.  The state is
     (err, conf->error); "return -1" inside the loop is modelled by doing nothing in the rounds left *)
  Definition invpsd_round (a11 a A22 W : view) (flags : Z) (s : Z * Z) : M T (Z * Z) :=
    if fst s <? 0 then ret s
    else
      a11val <- armas_get_unsafe a11 0 0 ;;
      if eqb K a11val zero then ret (-1, ARMAS_ESINGULAR)
      else
        let l := armas_submatrix W 0 0 (armas_size a) 1 in
        armas_copy l a ;;
        l_mvmult_sym zero a (div K (opp K one) a11val) A22 l flags ;;
        udot <- l_dot K E a l ;;
        armas_set_unsafe a11 0 0 (div K (sub K (div K one a11val) udot) a11val) ;;
        ret s.

  (* invspd.c:34-81 unblk_invpsd_lower *)
  Definition unblk_invpsd_lower (A W : view) (cerr : Z) : M T (Z * Z) :=
    up_loop (e_fuel E) A 1 (fun t s => invpsd_round (A11 t) (A21 t) (A22 t) W ARMAS_LOWER s)
      (ATL (mat_partition_2x2 A 0 0 PBottom)) (0, cerr).

  (* invspd.c:145-192 unblk_invpsd_upper *)
  Definition unblk_invpsd_upper (A W : view) (cerr : Z) : M T (Z * Z) :=
    up_loop (e_fuel E) A 1 (fun t s => invpsd_round (A11 t) (A12 t) (A22 t) W (Z.lor ARMAS_UPPER ARMAS_TRANSA) s)
      (ATL (mat_partition_2x2 A 0 0 PBottom)) (0, cerr).

  (* invspd.c:131-132, 243-244: err after the inverse of the diagonal block *)
  Definition spd_err (err : Z) (u : Z * Z) : Z * Z :=
    (if (fst u <? 0) && (err =? 0) then -1 else err, snd u).

  (* invspd.c:99-142 blk_invpsd_lower *)
  Definition blk_invpsd_lower (A W : view) (lb cerr : Z) : M T (Z * Z) :=
    up_loop (e_fuel E) A lb
      (fun t s =>
         let w2 := armas_make lb 1 lb (elems W) in
         let L21 := armas_make (rows (A21 t)) (cols (A11 t)) (rows (A21 t)) (elems W + lb) in
         armas_mcopy L21 (A21 t) 0 ;;
         l_mult_sym zero (A21 t) (opp K one) (A22 t) L21 ARMAS_LOWER ;;
         l_solve_trm K E (A21 t) one (A11 t) (Z.lor ARMAS_LOWER ARMAS_RIGHT) ;;
         l_solve_trm K E L21 one (A11 t) (Z.lor ARMAS_LOWER ARMAS_RIGHT) ;;
         u <- unblk_invpsd_lower (A11 t) w2 (snd s) ;;
         l_update_trm one (A11 t) (opp K one) (A21 t) L21 (Z.lor ARMAS_TRANSA ARMAS_LOWER) ;;
         ret (spd_err (fst s) u))
      (ATL (mat_partition_2x2 A 0 0 PBottom)) (0, cerr).

  (* invspd.c:210-253 blk_invpsd_upper *)
  Definition blk_invpsd_upper (A W : view) (lb cerr : Z) : M T (Z * Z) :=
    up_loop (e_fuel E) A lb
      (fun t s =>
         let w2 := armas_make lb 1 lb (elems W) in
         let U12 := armas_make (rows (A11 t)) (cols (A12 t)) (rows (A11 t)) (elems W + lb) in
         armas_mcopy U12 (A12 t) 0 ;;
         l_mult_sym zero (A12 t) (opp K one) (A22 t) U12 (Z.lor ARMAS_RIGHT ARMAS_UPPER) ;;
         l_solve_trm K E (A12 t) one (A11 t) (Z.lor ARMAS_LEFT ARMAS_UPPER) ;;
         l_solve_trm K E U12 one (A11 t) (Z.lor ARMAS_LEFT ARMAS_UPPER) ;;
         u <- unblk_invpsd_upper (A11 t) w2 (snd s) ;;
         l_update_trm one (A11 t) (opp K one) U12 (A12 t) (Z.lor ARMAS_UPPER ARMAS_TRANSB) ;;
         ret (spd_err (fst s) u))
      (ATL (mat_partition_2x2 A 0 0 PBottom)) (0, cerr).

  (* invspd.c:272-333 armas_cholinverse_w; A and wb may be null.  The result is the value returned,
     conf->error and the workspace.  The block size (:308-316) is chosen as in inv.c.  Not modelled:
     overflow of rows*lb*sizeof *)
  Definition armas_cholinverse_w (A : option view) (flags : Z) (wb : option wbuf) (cerr : Z) : M T (Z * Z * option wbuf) :=
    match A with
    | None => ret (-1, ARMAS_EINVAL, wb)
    | Some A =>
        if match wb with Some w => w_bytes w =? 0 | None => false end then
          let n := if (e_lb E >? 0) && (rows A >? e_lb E) then e_lb E * rows A else rows A in
          ret (0, cerr, match wb with Some w => Some (mkwbuf (w_buf w) (n * e_p E) (w_offset w)) | None => None end)
        else if negb (rows A =? cols A) then ret (-1, ARMAS_ESIZE, wb)
        else
          let bytes := match wb with Some w => armas_wbytes w | None => 0 end in
          if bytes <? rows A * e_p E then ret (-1, ARMAS_EWORK, wb)
          else
            let wsz := bytes / e_p E in
            let lb := luinv_lb E (rows A) wsz in
            let Wt := armas_make wsz 1 wsz (match wb with Some w => armas_wptr w / e_p E | None => 0 end) in
            s <- (if (lb =? 0) || (rows A <=? lb) then
                    if has flags ARMAS_LOWER then unblk_invpsd_lower A Wt cerr else unblk_invpsd_upper A Wt cerr
                  else
                    if has flags ARMAS_LOWER then blk_invpsd_lower A Wt lb cerr else blk_invpsd_upper A Wt lb cerr) ;;
            ret (fst s, snd s, wb)
    end.

  (* invspd.c:335-358 armas_cholinverse; ptr is what calloc returns, None when it fails *)
  Definition armas_cholinverse (ptr : option Z) (A : option view) (flags cerr : Z) : M T (Z * Z) :=
    r <- armas_cholinverse_w A flags (Some (mkwbuf 0 0 0)) cerr ;;
    if fst (fst r) <? 0 then ret (-1, snd (fst r))
    else
      let bytes := match snd r with Some w => w_bytes w | None => 0 end in
      if bytes >? 0 then
        match ptr with
        | None => ret (-1, ARMAS_EMEMORY)
        | Some b => r <- armas_cholinverse_w A flags (Some (armas_walloc b bytes)) cerr ;; ret (fst r)
        end
      else r <- armas_cholinverse_w A flags None cerr ;; ret (fst r).
End InvSpd.
