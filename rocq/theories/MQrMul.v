(* MQrMul.v: model of src/lapack/qrmult.c, multiplication by the orthogonal matrix Q of a QR factorization. *)
From Coq Require Import ZArith Bool.
From Verif Require Import Mem MView MFlags MBase MCopy MNum MBlas1 MElem MBlas2 MTrm MGemm MTrsm MTrmm MLap MHouse MQr.
Local Open Scope Z_scope.
Local Open Scope prog_scope.

Section QrMul.
  (* isqrt n is what (int) SQRT((DTYPE) n) gives *)
  Context {T : Type} (K : num T) (E : lenv) (isqrt : Z -> Z).

  (* qrmult.c:85-112, 156-188, 250-278 and others, the loops that run to the top left:
       while (ATL.rows > 0 && ATL.cols > 0) {
          mat_repartition_2x2to3x3(&ATL, ..., A, nb, ARMAS_PTOPLEFT);
          ... body ...
          mat_continue_3x3to2x2(&ATL, ..., A, ARMAS_PTOPLEFT);
       }
     TL is ATL, the only one of the four parts that is read again *)
  Fixpoint up_loop {S : Type} (fuel : nat) (A : view) (nb : Z) (body : blk3 -> S -> M T S) (TL : view) (s : S) : M T S :=
    if more TL then
      match fuel with
      | O => fail
      | Datatypes.S f =>
          let t := mat_repartition_2x2to3x3 TL A nb PTop in
          s' <- body t s ;;
          up_loop f A nb body (ATL (mat_continue_3x3to2x2 (A00 t) (A11 t) A PTop)) s'
      end
    else ret s.

  (* the loop in one of the two directions; qrmult.c:60-80, 125-146 and others choose the start *)
  Definition two_way (down : bool) (A : view) (nb : Z) (body : dir -> blk3 -> view * view -> M T (view * view))
      (s0 s1 : view * view) : M T Z :=
    if down then
      down_loop (e_fuel E) A nb more (fun _ => body PBottom) (mat_partition_2x2 A 0 0 PTop) s0 ;; ret 0
    else
      up_loop (e_fuel E) A nb (body PTop)
        (ATL (mat_partition_2x2 A (Z.max 0 (rows A - cols A)) (Z.max 0 (cols A - rows A)) PBottom)) s1 ;; ret 0.

  (* qrmult.c:48-114 unblk_qrmult_left; the state of the loop is CT and tT *)
  Definition unblk_qrmult_left (C A tau W : view) (flags : Z) : M T Z :=
    let w12 := armas_make (cols C) 1 (cols C) (elems W) in
    two_way (has flags ARMAS_TRANS) A 1
      (fun d t s =>
         let '(C0, c1, C2) := mat_repartition_2x1to3x1 (fst s) C 1 d in
         let '(t0, t1, t2) := mat_repartition_2x1to3x1 (snd s) tau 1 d in
         armas_apply_householder2x1 K E (Some t1) (A21 t) c1 C2 w12 ARMAS_LEFT ;;
         ret (fst (mat_continue_3x1to2x1 C0 c1 C d), fst (mat_continue_3x1to2x1 t0 t1 tau d)))
      (fst (mat_partition_2x1 C 0 PTop), fst (mat_partition_2x1 tau 0 PTop))
      (fst (mat_partition_2x1 C (Z.max 0 (rows A - cols A)) PBottom),
       fst (mat_partition_2x1 tau (Z.max 0 (armas_size tau - cols A)) PBottom)).

  (* the body of the blocked loops, qrmult.c:167-176, 343-352, up to the update *)
  Definition qrmult_reflector (t : blk3) (t1 Tv : view) : M T view :=
    let AL := mat_merge2x1 (A11 t) (A21 t) in
    let Tcur := armas_make (cols (A11 t)) (cols (A11 t)) (cols (A11 t)) (elems Tv) in
    armas_mscale K Tcur (zero K) 0 ;;
    armas_unblk_qr_reflector K E Tcur AL t1 ;;
    ret Tcur.

  (* qrmult.c:116-189 blk_qrmult_left *)
  Definition blk_qrmult_left (C A tau Tv W : view) (flags lb : Z) : M T Z :=
    two_way (has flags ARMAS_TRANS) A lb
      (fun d t s =>
         let '(t0, t1, t2) := mat_repartition_2x1to3x1 (snd s) tau (cols (A11 t)) d in
         let '(C0, C1, C2) := mat_repartition_2x1to3x1 (fst s) C (cols (A11 t)) d in
         Tcur <- qrmult_reflector t t1 Tv ;;
         let Wrk := armas_make (cols C1) (cols (A11 t)) (cols C1) (elems W) in
         armas_update_qr_left K E C1 C2 (A11 t) (A21 t) Tcur Wrk (has flags ARMAS_TRANS) ;;
         ret (fst (mat_continue_3x1to2x1 C0 C1 C d), fst (mat_continue_3x1to2x1 t0 t1 tau d)))
      (fst (mat_partition_2x1 C 0 PTop), fst (mat_partition_2x1 tau 0 PTop))
      (fst (mat_partition_2x1 C (Z.max 0 (rows A - cols A)) PBottom),
       fst (mat_partition_2x1 tau (Z.max 0 (armas_size tau - Z.min (rows A) (cols A))) PBottom)).

  (* qrmult.c:206-280 unblk_qrmult_right; the state of the loop is CL and tT *)
  Definition unblk_qrmult_right (C A tau W : view) (flags : Z) : M T Z :=
    let w12 := armas_make (rows C) 1 (rows C) (elems W) in
    two_way (negb (has flags ARMAS_TRANS)) A 1
      (fun d t s =>
         let '(C0, c1, C2) := mat_repartition_1x2to1x3 (fst s) C 1 d in
         let '(t0, t1, t2) := mat_repartition_2x1to3x1 (snd s) tau 1 d in
         armas_apply_householder2x1 K E (Some t1) (A21 t) c1 C2 w12 ARMAS_RIGHT ;;
         ret (fst (mat_continue_1x3to1x2 C0 c1 C d), fst (mat_continue_3x1to2x1 t0 t1 tau d)))
      (fst (mat_partition_1x2 C 0 PTop), fst (mat_partition_2x1 tau 0 PTop))
      (fst (mat_partition_1x2 C (Z.max 0 (cols C - cols A)) PBottom),
       fst (mat_partition_2x1 tau (Z.max 0 (armas_size tau - Z.min (rows A) (cols A))) PBottom)).

  (* qrmult.c:289-367 blk_qrmult_right *)
  Definition blk_qrmult_right (C A tau Tv W : view) (flags lb : Z) : M T Z :=
    two_way (negb (has flags ARMAS_TRANS)) A lb
      (fun d t s =>
         let '(t0, t1, t2) := mat_repartition_2x1to3x1 (snd s) tau (cols (A11 t)) d in
         let '(C0, C1, C2) := mat_repartition_1x2to1x3 (fst s) C (cols (A11 t)) d in
         Tcur <- qrmult_reflector t t1 Tv ;;
         let Wrk := armas_make (rows C1) (cols (A11 t)) (rows C1) (elems W) in
         armas_update_qr_right K E C1 C2 (A11 t) (A21 t) Tcur Wrk (has flags ARMAS_TRANS) ;;
         ret (fst (mat_continue_1x3to1x2 C0 C1 C d), fst (mat_continue_3x1to2x1 t0 t1 tau d)))
      (fst (mat_partition_1x2 C 0 PTop), fst (mat_partition_2x1 tau 0 PTop))
      (fst (mat_partition_1x2 C (Z.max 0 (cols C - cols A)) PBottom),
       fst (mat_partition_2x1 tau (Z.max 0 (armas_size tau - Z.min (rows A) (cols A))) PBottom)).

  (* qrmult.c:497-507: the block size that fits into wsz elements of workspace *)
  Definition qrmult_lb (k wsz lb : Z) : Z :=
    if (lb >? 0) && (k >? lb) && (wsz <? (k + lb) * lb)
    then let lb := and_not3 (Z.quot (isqrt (k * k + 4 * wsz) - k) 2) in if lb <? 32 then 0 else lb
    else lb.

  (* qrmult.c:449-543 armas_qrmult_w; all pointers may be null.  Not modelled: overflow of the
     products of sizes *)
  Definition armas_qrmult_w (C A tau : option view) (flags : Z) (wb : option wbuf) : M T (Z * option wbuf) :=
    match C with
    | None => ret (- ARMAS_EINVAL, wb)
    | Some C =>
        let right := has flags ARMAS_RIGHT in
        let k := if right then rows C else cols C in
        if match wb with Some w => w_bytes w =? 0 | None => false end then
          let n := if (e_lb E >? 0) && (k >? e_lb E) then (k + e_lb E) * e_lb E else k in
          ret (0, match wb with Some w => Some (mkwbuf (w_buf w) (n * e_p E) (w_offset w)) | None => None end)
        else match A, tau with
        | Some A, Some tau =>
            let P := if right then cols C else rows C in
            if negb (P =? rows A) || negb (armas_size tau =? cols A) then ret (- ARMAS_ESIZE, wb)
            else match wb with
            | None => ret (- ARMAS_EWORK, wb)
            | Some w =>
                if armas_wbytes w <? k * e_p E then ret (- ARMAS_EWORK, wb)
                else
                  let lb := qrmult_lb k (armas_wbytes w / e_p E) (e_lb E) in
                  let buf := armas_wptr w / e_p E in
                  let tauh := armas_submatrix tau 0 0 (cols A) 1 in
                  (if (lb =? 0) || (k <=? lb) then
                     let Wrk := armas_make k 1 k buf in
                     if right then unblk_qrmult_right C A tauh Wrk flags else unblk_qrmult_left C A tauh Wrk flags
                   else
                     let Tv := armas_make lb lb lb buf in
                     let Wrk := armas_make k lb k (buf + armas_size Tv) in
                     if right then blk_qrmult_right C A tauh Tv Wrk flags lb else blk_qrmult_left C A tauh Tv Wrk flags lb) ;;
                  ret (0, Some (armas_wsetpos w (armas_wpos w)))
            end
        | _, _ => ret (- ARMAS_EINVAL, wb)
        end
    end.

  (* qrmult.c:375-400 armas_qrmult; ptr is what calloc returns, None when it fails *)
  Definition armas_qrmult (ptr : option Z) (C A tau : option view) (flags : Z) : M T Z :=
    r <- armas_qrmult_w C A tau flags (Some (mkwbuf 0 0 0)) ;;
    if fst r <? 0 then ret (fst r)
    else
      let bytes := match snd r with Some w => w_bytes w | None => 0 end in
      if bytes >? 0 then
        match ptr with
        | None => ret (- ARMAS_EMEMORY)
        | Some b => r <- armas_qrmult_w C A tau flags (Some (armas_walloc b bytes)) ;; ret (fst r)
        end
      else r <- armas_qrmult_w C A tau flags None ;; ret (fst r).
End QrMul.
