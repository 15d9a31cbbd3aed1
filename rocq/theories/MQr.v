(* MQr.v: model of the QR factorization src/lapack/qr.c. *)
From Coq Require Import ZArith Bool.
From Verif Require Import Mem MView MFlags MBase MCopy MNum MBlas1 MElem MBlas2 MTrm MGemm MTrsm MTrmm MLap MHouse.
Local Open Scope Z_scope.
Local Open Scope prog_scope.

Section Qr.
  Context {T : Type} (K : num T) (E : lenv) (safmin : T) (steps : T -> nat).

  (* src/lapack/qr.c:42-85 armas_unblk_qrfactor; the state of the loop is tT *)
  Definition armas_unblk_qrfactor (A tau W : view) : M T Z :=
    down_loop (e_fuel E) A 1 more
      (fun _ t (tT : view) =>
         let '(t0, t1, t2) := mat_repartition_2x1to3x1 tT tau 1 PBottom in
         armas_compute_householder K E safmin steps (A11 t) (A21 t) t1 ;;
         let w12 := armas_make (cols (A12 t)) 1 (cols (A12 t)) (elems W) in
         armas_apply_householder2x1 K E (Some t1) (A21 t) (A12 t) (A22 t) w12 ARMAS_LEFT ;;
         ret (fst (mat_continue_3x1to2x1 t0 t1 tau PBottom)))
      (mat_partition_2x2 A 0 0 PTop) (fst (mat_partition_2x1 tau 0 PTop)) ;;
    ret 0.

  (* calls with the configuration filled in, as in MLap.v *)
  Definition l_mult_trm (B : view) (alpha : T) (A : view) (flags : Z) : M T Z :=
    armas_mult_trm K (e_fuel E) (e_b2 E) (e_opt E) (e_cb E) (e_mb E) (e_nb E) (e_kb E) (e_p E) B alpha A flags.
  Definition l_mvmult_trm (x : view) (alpha : T) (A : view) (flags : Z) : M T Z :=
    armas_mvmult_trm K (e_fuel E) (e_b1 E) (e_b2 E) (e_opt E) x alpha A flags.

  (* src/lapack/qr.c:161-193 armas_update_qr_left; require() is empty without
     ARMAS_WITH_CHECKS and the results of the calls are not looked at *)
  Definition armas_update_qr_left (C1 C2 Y1 Y2 Tv W : view) (transpose : bool) : M T Z :=
    if (armas_size C1 =? 0) && (armas_size C2 =? 0) then ret 0
    else
      armas_mcopy W C1 ARMAS_TRANS ;;
      l_mult_trm W (one K) Y1 (Z.lor (Z.lor ARMAS_LOWER ARMAS_UNIT) ARMAS_RIGHT) ;;
      l_mult K E (one K) W (one K) C2 Y2 ARMAS_TRANSA ;;
      let bits := Z.lor ARMAS_UPPER ARMAS_RIGHT in
      let bits := if transpose then bits else Z.lor bits ARMAS_TRANSA in
      l_mult_trm W (one K) Tv bits ;;
      l_mult K E (one K) C2 (opp K (one K)) Y2 W ARMAS_TRANSB ;;
      l_mult_trm W (one K) Y1 (Z.lor (Z.lor (Z.lor ARMAS_LOWER ARMAS_UNIT) ARMAS_TRANSA) ARMAS_RIGHT) ;;
      armas_mplus K (one K) C1 (opp K (one K)) W ARMAS_TRANSB ;;
      ret 0.

  (* src/lapack/qr.c:207-240 armas_update_qr_right *)
  Definition armas_update_qr_right (C1 C2 Y1 Y2 Tv W : view) (transpose : bool) : M T Z :=
    if (armas_size C1 =? 0) && (armas_size C2 =? 0) then ret 0
    else
      armas_mcopy W C1 0 ;;
      l_mult_trm W (one K) Y1 (Z.lor (Z.lor ARMAS_LOWER ARMAS_UNIT) ARMAS_RIGHT) ;;
      l_mult K E (one K) W (one K) C2 Y2 0 ;;
      let bits := Z.lor ARMAS_UPPER ARMAS_RIGHT in
      let bits := if transpose then Z.lor bits ARMAS_TRANSA else bits in
      l_mult_trm W (one K) Tv bits ;;
      l_mult K E (one K) C2 (opp K (one K)) W Y2 ARMAS_TRANSB ;;
      l_mult_trm W (one K) Y1 (Z.lor (Z.lor (Z.lor ARMAS_LOWER ARMAS_UNIT) ARMAS_TRANSA) ARMAS_RIGHT) ;;
      armas_mplus K (one K) C1 (opp K (one K)) W 0 ;;
      ret 0.

  (* src/lapack/qr.c:253-315 armas_unblk_qr_reflector; the state of the loop is TTL and tT *)
  Definition armas_unblk_qr_reflector (Tv A tau : view) : M T Z :=
    down_loop (e_fuel E) A 1 more
      (fun _ t (s : view * view) =>
         let '(TTL, tT) := s in
         let u := mat_repartition_2x2to3x3 TTL Tv 1 PBottom in
         let '(t0, t1, t2) := mat_repartition_2x1to3x1 tT tau 1 PBottom in
         tauval <- armas_get (zero K) t1 0 0 ;;
         when (negb (eqb K tauval (zero K)))
           (armas_set (A11 u) 0 0 tauval ;;
            armas_axpby K (zero K) (A01 u) (one K) (A10 t) ;;
            l_mvmult K E (opp K tauval) (A01 u) (opp K tauval) (A20 t) (A21 t) ARMAS_TRANSA ;;
            l_mvmult_trm (A01 u) (one K) (A00 u) ARMAS_UPPER ;;
            ret tt) ;;
         ret (ATL (mat_continue_3x3to2x2 (A00 u) (A11 u) Tv PBottom), fst (mat_continue_3x1to2x1 t0 t1 tau PBottom)))
      (mat_partition_2x2 A 0 0 PTop) (ATL (mat_partition_2x2 Tv 0 0 PTop), fst (mat_partition_2x1 tau 0 PTop)) ;;
    ret 0.

  (* src/lapack/qr.c:333-345 armas_qrreflector *)
  Definition armas_qrreflector (Tv A tau : view) : M T Z :=
    if (cols Tv <? cols A) || (rows Tv <? cols A) then ret (-1)
    else armas_unblk_qr_reflector Tv A tau ;; ret 0.

  (* src/lapack/qr.c:91-148 blk_qrfactor; the state of the loop is tT and t2, which is not
     set before the first pass *)
  Definition blk_qrfactor (A tau Twork W : view) (lb : Z) : M T Z :=
    r <- down_loop (e_fuel E) A lb (more_than lb)
      (fun _ t (s : view * option view) =>
         let '(t0, t1, t2) := mat_repartition_2x1to3x1 (fst s) tau lb PBottom in
         let w1 := armas_make (rows (A11 t)) 1 (rows (A11 t)) (elems W) in
         let AL := mat_merge2x1 (A11 t) (A21 t) in
         armas_unblk_qrfactor AL t1 w1 ;;
         armas_mscale K Twork (zero K) 0 ;;
         armas_unblk_qr_reflector Twork AL t1 ;;
         let Wrk := armas_make (cols (A12 t)) (rows (A12 t)) (cols (A12 t)) (elems W) in
         armas_update_qr_left (A12 t) (A22 t) (A11 t) (A21 t) Twork Wrk true ;;
         ret (fst (mat_continue_3x1to2x1 t0 t1 tau PBottom), Some t2))
      (mat_partition_2x2 A 0 0 PTop) (fst (mat_partition_2x1 tau 0 PTop), None) ;;
    let '(b, (_, t2)) := r in
    (if more (ABR b) then
       match t2 with
       | None => fail
       | Some t2 => armas_unblk_qrfactor (ABR b) t2 (armas_submatrix W 0 0 (cols (ABR b)) 1) ;; ret tt
       end
     else ret tt) ;;
    ret 0.

  (* src/lapack/qr.c:427-497 armas_qrfactor_w; A and wb may be null, tau may not.  The element
     address of the free space is its byte address divided by the size of an element.  Not
     modelled: overflow of cols*lb*sizeof *)
  Definition armas_qrfactor_w (A : option view) (tau : view) (wb : option wbuf) : M T (Z * option wbuf) :=
    match A with
    | None => ret (- ARMAS_EINVAL, wb)
    | Some A =>
        if match wb with Some w => w_bytes w =? 0 | None => false end then
          let n := if (e_lb E >? 0) && (cols A >? e_lb E) then cols A * e_lb E else cols A in
          ret (0, match wb with Some w => Some (mkwbuf (w_buf w) (n * e_p E) (w_offset w)) | None => None end)
        else if rows A <? cols A then ret (- ARMAS_ESIZE, wb)
        else if negb (armas_isvector tau) || (armas_size tau <? cols A) then ret (- ARMAS_EINVAL, wb)
        else match wb with
        | None => ret (- ARMAS_EWORK, wb)
        | Some w =>
            if armas_wbytes w <? cols A * e_p E then ret (- ARMAS_EWORK, wb)
            else
              let wsz := armas_wbytes w / e_p E in
              let lb := if (e_lb E >? 0) && (cols A >? e_lb E) && (wsz <? cols A * e_lb E)
                        then let lb := and_not3 (wsz / cols A) in if lb <? 32 then 0 else lb
                        else e_lb E in
              let buf := armas_wptr w / e_p E in
              (if (lb =? 0) || (cols A <=? lb) then
                 armas_unblk_qrfactor A tau (armas_make (cols A) 1 (cols A) buf)
               else
                 let Tv := armas_make lb lb lb buf in
                 blk_qrfactor A tau Tv (armas_make (cols A - lb) lb (cols A - lb) (buf + armas_size Tv)) lb) ;;
              ret (0, Some (armas_wsetpos w (armas_wpos w)))
        end
    end.

  (* src/lapack/qr.c:353-376 armas_qrfactor; ptr is what calloc returns, None when it fails *)
  Definition armas_qrfactor (ptr : option Z) (A : option view) (tau : view) : M T Z :=
    r <- armas_qrfactor_w A tau (Some (mkwbuf 0 0 0)) ;;
    if fst r <? 0 then ret (fst r)
    else
      let bytes := match snd r with Some w => w_bytes w | None => 0 end in
      if bytes >? 0 then
        match ptr with
        | None => ret (-1)
        | Some b => r <- armas_qrfactor_w A tau (Some (armas_walloc b bytes)) ;; ret (fst r)
        end
      else r <- armas_qrfactor_w A tau None ;; ret (fst r).
End Qr.
