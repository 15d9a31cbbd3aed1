(* MQrSolve.v: model of src/lapack/qrsolve.c, least squares and minimum norm solutions from a QR factorization. *)
From Coq Require Import ZArith Bool.
From Verif Require Import Mem MView MFlags MBase MCopy MNum MBlas1 MElem MBlas2 MTrm MGemm MTrsm MTrmm MLap MHouse MQr MQrMul.
Local Open Scope Z_scope.
Local Open Scope prog_scope.

Section QrSolve.
  (* isqrt n is what (int) SQRT((DTYPE) n) gives *)
  Context {T : Type} (K : num T) (E : lenv) (isqrt : Z -> Z).

  (* qrsolve.c:101-157 armas_qrsolve_w; the results of armas_solve_trm, armas_mscale and armas_qrmult_w are not looked at *)
  Definition armas_qrsolve_w (B A tau : option view) (flags : Z) (wb : option wbuf) : M T (Z * option wbuf) :=
    match B, A, tau with
    | Some B, Some A, Some tau =>
        if match wb with Some w => w_bytes w =? 0 | None => false end then
          armas_qrmult_w K E isqrt (Some B) (Some A) (Some tau) ARMAS_LEFT wb
        else if negb (rows B =? rows A) then ret (- ARMAS_ESIZE, wb)
        else match wb with
        | None => ret (- ARMAS_EWORK, wb)
        | Some w =>
            if armas_wbytes w <? cols B * e_p E then ret (- ARMAS_EWORK, wb)
            else
              let R := armas_submatrix A 0 0 (cols A) (cols A) in
              let BT := armas_submatrix B 0 0 (cols A) (cols B) in
              if has flags ARMAS_TRANS then
                l_solve_trm K E BT (one K) R (Z.lor ARMAS_LEFT (Z.lor ARMAS_UPPER ARMAS_TRANSA)) ;;
                let BB := armas_submatrix B (cols A) 0 (-1) (-1) in
                armas_mscale K BB (zero K) 0 ;;
                r <- armas_qrmult_w K E isqrt (Some B) (Some A) (Some tau) ARMAS_LEFT wb ;;
                ret (0, snd r)
              else
                r <- armas_qrmult_w K E isqrt (Some B) (Some A) (Some tau) (Z.lor ARMAS_LEFT ARMAS_TRANS) wb ;;
                l_solve_trm K E BT (one K) R (Z.lor ARMAS_LEFT ARMAS_UPPER) ;;
                ret (0, snd r)
        end
    | _, _, _ => ret (- ARMAS_EINVAL, wb)
    end.

  (* qrsolve.c:36-60 armas_qrsolve; ptr is what calloc returns, None when it fails *)
  Definition armas_qrsolve (ptr : option Z) (B A tau : option view) (flags : Z) : M T Z :=
    r <- armas_qrsolve_w B A tau flags (Some (mkwbuf 0 0 0)) ;;
    if fst r <? 0 then ret (fst r)
    else
      let bytes := match snd r with Some w => w_bytes w | None => 0 end in
      if bytes >? 0 then
        match ptr with
        | None => ret (- ARMAS_EMEMORY)
        | Some b => r <- armas_qrsolve_w B A tau flags (Some (armas_walloc b bytes)) ;; ret (fst r)
        end
      else r <- armas_qrsolve_w B A tau flags None ;; ret (fst r).
End QrSolve.
