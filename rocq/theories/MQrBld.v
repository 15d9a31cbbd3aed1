(* MQrBld.v: model of src/lapack/qrbld.c, forming the orthogonal matrix Q of a QR factorization. *)
From Coq Require Import ZArith Bool.
From Verif Require Import Mem MView MFlags MBase MCopy MNum MBlas1 MElem MBlas2 MTrm MGemm MTrsm MTrmm MLap MHouse MQr MQrMul.
Local Open Scope Z_scope.
Local Open Scope prog_scope.

Section QrBld.
  Context {T : Type} (K : num T) (E : lenv).
  Local Notation zero := (zero K).
  Local Notation one := (one K).

  (* qrbld.c:85-86, 162-164: the identity in the lower right corner *)
  Definition qrbuild_unit (ABR : view) : M T Z :=
    armas_mscale K ABR zero 0 ;;
    armas_madd K (armas_diag ABR 0) one 0.

  (* qrbld.c:61-119 unblk_qrbuild; the state of the loop is tT *)
  Definition unblk_qrbuild (A tau W : view) (mk nk : Z) (mayclear : bool) : M T Z :=
    let p := mat_partition_2x2 A mk nk PBottom in
    when ((nk >? 0) && mayclear)
      (armas_mscale K (ATR p) zero 0 ;; qrbuild_unit (ABR p) ;; ret tt) ;;
    up_loop (e_fuel E) A 1
      (fun t tT =>
         let '(t0, t1, t2) := mat_repartition_2x1to3x1 tT tau 1 PTop in
         let w12 := armas_make (cols (A12 t)) 1 (cols (A12 t)) (elems W) in
         armas_apply_householder2x1 K E (Some t1) (A21 t) (A12 t) (A22 t) w12 ARMAS_LEFT ;;
         tauval <- armas_get zero t1 0 0 ;;
         armas_scale K (A21 t) (opp K tauval) ;;
         armas_set (A11 t) 0 0 (sub K one tauval) ;;
         armas_scale K (A01 t) zero ;;
         ret (fst (mat_continue_3x1to2x1 t0 t1 tau PTop)))
      (ATL p) (fst (mat_partition_2x1 tau nk PBottom)) ;;
    ret 0.

  (* qrbld.c:132-203 blk_qrbuild.  T is not cleared between the blocks *)
  Definition blk_qrbuild (A tau Tv W : view) (k lb : Z) : M T Z :=
    let nk := cols A - k in
    let mk := rows A - k in
    let uk := Z.rem k lb in
    let p := mat_partition_2x2 A (mk + uk) (nk + uk) PBottom in
    let '(tT, tB) := mat_partition_2x1 tau (nk + uk) PBottom in
    when (nk + uk >? 0)
      (armas_mscale K (ATR p) zero 0 ;;
       (if uk >? 0 then unblk_qrbuild (ABR p) tB W (rows (ABR p) - uk) (cols (ABR p) - uk) true
        else qrbuild_unit (ABR p)) ;;
       ret tt) ;;
    up_loop (e_fuel E) A lb
      (fun t tT =>
         let '(t0, t1, t2) := mat_repartition_2x1to3x1 tT tau lb PTop in
         let AL := mat_merge2x1 (A11 t) (A21 t) in
         armas_unblk_qr_reflector K E Tv AL t1 ;;
         let Wrk := armas_make (cols (A12 t)) (rows (A12 t)) (cols (A12 t)) (elems W) in
         armas_update_qr_left K E (A12 t) (A22 t) (A11 t) (A21 t) Tv Wrk false ;;
         unblk_qrbuild AL t1 W (rows (A21 t)) 0 false ;;
         armas_mscale K (A01 t) zero 0 ;;
         ret (fst (mat_continue_3x1to2x1 t0 t1 tau PTop)))
      (ATL p) tT ;;
    ret 0.

  (* qrbld.c:309-316: the block size that fits into wsz elements of workspace *)
  Definition qrbuild_lb (n wsz lb : Z) : Z :=
    if (lb >? 0) && (n >? lb) && (wsz <? n * lb)
    then let lb := and_not3 (wsz / n) in if lb <? 32 then 0 else lb
    else lb.

  (* qrbld.c:273-337 armas_qrbuild_w; A, tau and wb may be null.  Not modelled: overflow of
     cols*lb*sizeof *)
  Definition armas_qrbuild_w (A tau : option view) (k : Z) (wb : option wbuf) : M T (Z * option wbuf) :=
    match A with
    | None => ret (- ARMAS_EINVAL, wb)
    | Some A =>
        if match wb with Some w => w_bytes w =? 0 | None => false end then
          let n := if (e_lb E >? 0) && (cols A >? e_lb E) then cols A * e_lb E else cols A in
          ret (0, match wb with Some w => Some (mkwbuf (w_buf w) (n * e_p E) (w_offset w)) | None => None end)
        else match tau with
        | None => ret (- ARMAS_EINVAL, wb)
        | Some tau =>
            match wb with
            | None => ret (- ARMAS_EWORK, wb)
            | Some w =>
                if armas_wbytes w <? cols A * e_p E then ret (- ARMAS_EWORK, wb)
                else
                  let lb := qrbuild_lb (cols A) (armas_wbytes w / e_p E) (e_lb E) in
                  let buf := armas_wptr w / e_p E in
                  (if (lb =? 0) || (cols A <=? lb) then
                     unblk_qrbuild A tau (armas_make (cols A) 1 (cols A) buf) (rows A - k) (cols A - k) true
                   else
                     let Tv := armas_make lb lb lb buf in
                     blk_qrbuild A tau Tv (armas_make (cols A - lb) lb (cols A - lb) (buf + armas_size Tv)) k lb) ;;
                  ret (0, Some (armas_wsetpos w (armas_wpos w)))
            end
        end
    end.

  (* qrbld.c:212-235 armas_qrbuild; ptr is what calloc returns, None when it fails *)
  Definition armas_qrbuild (ptr : option Z) (A tau : option view) (k : Z) : M T Z :=
    r <- armas_qrbuild_w A tau k (Some (mkwbuf 0 0 0)) ;;
    if fst r <? 0 then ret (fst r)
    else
      let bytes := match snd r with Some w => w_bytes w | None => 0 end in
      if bytes >? 0 then
        match ptr with
        | None => ret (- ARMAS_EMEMORY)
        | Some b => r <- armas_qrbuild_w A tau k (Some (armas_walloc b bytes)) ;; ret (fst r)
        end
      else r <- armas_qrbuild_w A tau k None ;; ret (fst r).
End QrBld.
