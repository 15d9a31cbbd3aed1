(* MLu.v: model of src/lapack/lu.c and src/include/pivot.h. *)
From Coq Require Import ZArith Bool.
From Verif Require Import Mem MView MFlags MBase MCopy MNum MBlas1 MElem MBlas2 MTrm MGemm MTrsm MPivot MLap.
Local Open Scope Z_scope.
Local Open Scope prog_scope.

(* an armas_pivot_t that points into the index array of another one (owner = 0): offset of the
   first index in the array and number of indexes.  The array itself is a function from
   positions to indexes. *)
Record pview : Type := mkpv { pv_off : Z; pv_n : Z }.

(* the pivots a view shows in the array ix *)
Definition pv_pivots (ix : Z -> Z) (p : pview) : pivots := mkpiv (pv_n p) (fun k => ix (pv_off p + k)).

(* src/include/pivot.h:22-28 subpivot *)
Definition subpivot (P : pview) (K N : Z) : pview := mkpv (pv_off P + K) N.

(* src/include/pivot.h:51-67 pivot_2x1 with ARMAS_PTOP; the second result pB is not used by lu.c *)
Definition pivot_2x1_top (P : pview) (nb : Z) : pview * pview :=
  let nb := if nb >? pv_n P then pv_n P else nb in
  (subpivot P 0 nb, subpivot P nb (pv_n P - nb)).

(* src/include/pivot.h:102-126 pivot_repart_2x1to3x1 with ARMAS_PBOTTOM *)
Definition pivot_repart_bottom (pT P : pview) (nb : Z) : pview * pview * pview :=
  let nT := pv_n pT in
  let nb := if nT + nb >? pv_n P then pv_n P - nT else nb in
  (subpivot P 0 nT, subpivot P nT nb, subpivot P (nT + nb) (pv_n P - nT - nb)).

(* src/include/pivot.h:158-173 pivot_cont_3x1to2x1 with ARMAS_PBOTTOM *)
Definition pivot_cont_bottom (p0 p1 P : pview) : pview * pview :=
  (subpivot P 0 (pv_n p0 + pv_n p1), subpivot P (pv_n p0 + pv_n p1) (pv_n P - pv_n p0 - pv_n p1)).

(* src/include/armas.h:521-525 armas_pivot_set through a view *)
Definition pv_set (ix : Z -> Z) (p : pview) (k v : Z) : Z -> Z :=
  if (0 <=? k) && (k <? pv_n p) then (fun q => if q =? pv_off p + k then v else ix q) else ix.

(* src/include/armas.h:506-509 armas_pivot_get through a view *)
Definition pv_get (ix : Z -> Z) (p : pview) (k : Z) : Z := armas_pivot_get (pv_pivots ix p) k.

Section Lu.
  Context {T : Type} (K : num T) (E : lenv).
  Local Notation one := (one K).

  (* src/lapack/lu.c:36-65 unblk_lufactor_nopiv *)
  Definition unblk_lufactor_nopiv (A : view) : M T Z :=
    down_loop (e_fuel E) A 1 more
      (fun _ t (_ : unit) =>
         a11val <- armas_get (zero K) (A11 t) 0 0 ;;
         armas_scale K (A21 t) (div K one a11val) ;;
         l_mvupdate K E one (A22 t) (opp K one) (A21 t) (A12 t) ;;
         ret tt)
      (mat_partition_2x2 A 0 0 PTop) tt ;;
    ret 0.

  (* src/lapack/lu.c:67-104 blk_lufactor_nopiv *)
  Definition blk_lufactor_nopiv (A : view) (lb : Z) : M T Z :=
    r <- down_loop (e_fuel E) A lb (more_than lb)
      (fun _ t (_ : unit) =>
         unblk_lufactor_nopiv (A11 t) ;;
         l_solve_trm K E (A12 t) one (A11 t) (Z.lor ARMAS_LEFT (Z.lor ARMAS_LOWER ARMAS_UNIT)) ;;
         l_solve_trm K E (A21 t) one (A11 t) (Z.lor ARMAS_RIGHT ARMAS_UPPER) ;;
         l_mult K E one (A22 t) (opp K one) (A21 t) (A12 t) 0 ;;
         ret tt)
      (mat_partition_2x2 A 0 0 PTop) tt ;;
    let ABRv := ABR (fst r) in
    when (more ABRv) (unblk_lufactor_nopiv ABRv ;; ret tt) ;;
    ret 0.

  (* the local state of the pivoting loops: the column partition AL, the pivot partition pT,
     the index array, err and conf->error.  Of the other calls only their effect on conf->error
     in case of failure is not modelled; none of them fails on the blocks they are given. *)
  Record lstate : Type := mklst { s_AL : view; s_pT : pview; s_ix : Z -> Z; s_err : Z; s_cerr : Z }.

  (* src/lapack/lu.c:259-264 and 179-184: the columns to the right of a wide matrix *)
  Definition lu_tail (A : view) (P : pview) (b : blk2) (ix : Z -> Z) : M T unit :=
    when (cols (ABR b) >? 0)
      (armas_pivot_rows (ATR b) (pv_pivots ix P) ARMAS_PIVOT_FORWARD ;;
       l_solve_trm K E (ATR b) one (ATL b) (Z.lor ARMAS_LEFT (Z.lor ARMAS_UNIT ARMAS_LOWER)) ;;
       ret tt).

  (* src/lapack/lu.c:109-187 unblk_lufactor.  The argument offset is not used by the code.
     The result is err, the index array and conf->error. *)
  Definition unblk_lufactor (A : view) (P : pview) (ix : Z -> Z) (cerr : Z) : M T (Z * (Z -> Z) * Z) :=
    let '(AL, _) := mat_partition_1x2 A 0 PTop in
    let '(pT, _) := pivot_2x1_top P 0 in
    r <- down_loop (e_fuel E) A 1 more
      (fun b t s =>
         let '(A0, a1, _) := mat_repartition_1x2to1x3 (s_AL s) A 1 PBottom in
         let '(p0, p1, _) := pivot_repart_bottom (s_pT s) P 1 in
         let ix := s_ix s in
         armas_pivot_rows a1 (pv_pivots ix p0) ARMAS_PIVOT_FORWARD ;;
         l_mvsolve_trm K E (A01 t) one (A00 t) (Z.lor ARMAS_LEFT (Z.lor ARMAS_LOWER ARMAS_UNIT)) ;;
         a11val <- armas_get (zero K) (A11 t) 0 0 ;;
         aa <- l_dot K E (A10 t) (A01 t) ;;
         armas_set (A11 t) 0 0 (sub K a11val aa) ;;
         err <- l_mvmult K E one (A21 t) (opp K one) (A20 t) (A01 t) 0 ;;
         let aB0 := armas_column (ABR b) 0 in
         im <- armas_iamax K aB0 ;;
         let pi := im + 1 in
         let ix := pv_set ix p1 0 pi in
         armas_pivot_rows aB0 (pv_pivots ix p1) ARMAS_PIVOT_FORWARD ;;
         a11val <- armas_get (zero K) (A11 t) 0 0 ;;
         ec <- (if eqb K a11val (zero K) then ret (-1, ARMAS_ESINGULAR)
                else armas_scale K (A21 t) (div K one a11val) ;; ret (err, s_cerr s)) ;;
         armas_pivot_rows (ABL b) (pv_pivots ix p1) ARMAS_PIVOT_FORWARD ;;
         let ix := pv_set ix p1 0 (pi + rows (ATL b)) in
         let '(AL, _) := mat_continue_1x3to1x2 A0 a1 A PBottom in
         let '(pT, _) := pivot_cont_bottom p0 p1 P in
         ret (mklst AL pT ix (fst ec) (snd ec)))
      (mat_partition_2x2 A 0 0 PTop) (mklst AL pT ix 0 cerr) ;;
    let '(b, s) := r in
    lu_tail A P b (s_ix s) ;;
    ret (s_err s, s_ix s, s_cerr s).

  (* src/lapack/lu.c:245-248: the loop that adds ATL.rows to the indexes of p1 *)
  Fixpoint shift_pivots (n : nat) (k : Z) (p1 : pview) (d : Z) (ix : Z -> Z) : Z -> Z :=
    match n with
    | O => ix
    | S n' => shift_pivots n' (k + 1) p1 d (pv_set ix p1 k (pv_get ix p1 k + d))
    end.

  (* src/lapack/lu.c:194-266 blk_lufactor *)
  Definition blk_lufactor (A : view) (P : pview) (lb : Z) (ix : Z -> Z) (cerr : Z) : M T (Z * (Z -> Z) * Z) :=
    let '(AL, _) := mat_partition_1x2 A 0 PTop in
    let '(pT, _) := pivot_2x1_top P 0 in
    r <- down_loop (e_fuel E) A lb more
      (fun b t s =>
         let '(A0, A1, _) := mat_repartition_1x2to1x3 (s_AL s) A (cols (A11 t)) PBottom in
         let '(p0, p1, _) := pivot_repart_bottom (s_pT s) P (cols (A11 t)) in
         armas_pivot_rows A1 (pv_pivots (s_ix s) p0) ARMAS_PIVOT_FORWARD ;;
         l_solve_trm K E (A01 t) one (A00 t) (Z.lor ARMAS_LEFT (Z.lor ARMAS_LOWER ARMAS_UNIT)) ;;
         l_mult K E one (A11 t) (opp K one) (A10 t) (A01 t) 0 ;;
         l_mult K E one (A21 t) (opp K one) (A20 t) (A01 t) 0 ;;
         let AB0 := mat_merge2x1 (A11 t) (A21 t) in
         u <- unblk_lufactor AB0 p1 (s_ix s) (s_cerr s) ;;
         let '(err, ix, cerr) := u in
         armas_pivot_rows (ABL b) (pv_pivots ix p1) ARMAS_PIVOT_FORWARD ;;
         let ix := shift_pivots (Z.to_nat (pv_n p1)) 0 p1 (rows (ATL b)) ix in
         let '(AL, _) := mat_continue_1x3to1x2 A0 A1 A PBottom in
         let '(pT, _) := pivot_cont_bottom p0 p1 P in
         ret (mklst AL pT ix err cerr))
      (mat_partition_2x2 A 0 0 PTop) (mklst AL pT ix 0 cerr) ;;
    let '(b, s) := r in
    lu_tail A P b (s_ix s) ;;
    ret (s_err s, s_ix s, s_cerr s).

  (* src/lapack/lu.c:292-315 armas_lufactor with P == NULL *)
  Definition armas_lufactor_nopiv (A : view) : M T Z :=
    if (e_lb E =? 0) || (cols A <=? e_lb E) || (rows A <=? e_lb E) then unblk_lufactor_nopiv A
    else blk_lufactor_nopiv A (e_lb E).

  (* src/lapack/lu.c:292-315 armas_lufactor with P != NULL that owns the index array ix *)
  Definition armas_lufactor (A : view) (np : Z) (ix : Z -> Z) (cerr : Z) : M T (Z * (Z -> Z) * Z) :=
    if (e_lb E =? 0) || (cols A <=? e_lb E) || (rows A <=? e_lb E) then unblk_lufactor A (mkpv 0 np) ix cerr
    else blk_lufactor A (mkpv 0 np) (e_lb E) ix cerr.

  (* src/lapack/lu.c:342-373 armas_lusolve *)
  Definition armas_lusolve (B A : view) (P : option pivots) (flags : Z) : M T Z :=
    if negb ((rows B =? cols A) && (rows A =? cols A)) then ret (- ARMAS_ESIZE)
    else
      match P with Some P => armas_pivot_rows B P ARMAS_PIVOT_FORWARD ;; ret tt | None => ret tt end ;;
      (if has flags ARMAS_TRANS then
         l_solve_trm K E B one A (Z.lor ARMAS_LEFT (Z.lor ARMAS_LOWER (Z.lor ARMAS_UNIT ARMAS_TRANSA))) ;;
         l_solve_trm K E B one A (Z.lor ARMAS_LEFT (Z.lor ARMAS_UPPER ARMAS_TRANSA))
       else
         l_solve_trm K E B one A (Z.lor ARMAS_LEFT (Z.lor ARMAS_LOWER ARMAS_UNIT)) ;;
         l_solve_trm K E B one A (Z.lor ARMAS_LEFT ARMAS_UPPER)) ;;
      ret 0.
End Lu.
