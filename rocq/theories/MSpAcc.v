(* MSpAcc.v: model of the sparse accumulator (src/sparse/accum.c) and of the
   sums and products of compressed matrices (src/sparse/add.c, mult.c).

   Simplifications.  The three arrays of the accumulator lie one after the other
   in the workspace; the model keeps them apart as functional arrays, so running
   over the end of one is undefined behaviour.  Their contents before the first
   use are the contents of the workspace: a parameter (junk).  The result C does
   not share its arrays with A or B.  assert() is compiled in: a failing
   assertion is the end of the program (fail).  int arithmetic is done in Z. *)
From Coq Require Import ZArith List Bool Lia.
From Verif Require Import Mem MView MNum MFlags MBase MSparse MSpVec.
Import ListNotations.
Local Open Scope Z_scope.
Local Open Scope prog_scope.

(* src/include/sparse.h:89-95 armas_accum_t; nz is the length of the arrays *)
Record accum (T : Type) : Type := mkaccum { ac_v : arr T; ac_mark : arr Z; ac_q : arr Z; ac_tail : Z }.
Arguments mkaccum {T}. Arguments ac_v {T} _. Arguments ac_mark {T} _. Arguments ac_q {T} _. Arguments ac_tail {T} _.

Section SpAcc.
  Context {T : Type} (K : num T).
  (* sizeof(DTYPE) *)
  Context (sz : Z).
  Local Notation "x +' y" := (add K x y) (at level 50, left associativity).
  Local Notation "x *' y" := (mul K x y) (at level 40, left associativity).

  (* ------------------------------------------------------------ accum.c *)

  (* src/include/sparse.h:101-103, 109-111, 118-120 *)
  Definition armas_accum_bytes (n : Z) : Z := sp_align64 (n * sz + 2 * n * 4).
  Definition armas_accum_dim (A : sparse T) : Z := if kind_eqb (sp_kind A) CSR then sp_cols A else sp_rows A.
  Definition armas_accum_need (A : sparse T) : Z := armas_accum_bytes (armas_accum_dim A).

  (* accum.c:42-49 armas_accum_make; junk: what the workspace holds.  None: the
     block is too small and the accumulator is left uninitialized *)
  Definition armas_accum_make (n len : Z) (junk : accum T) : option (accum T) :=
    if len <? armas_accum_bytes n then None
    else Some (mkaccum (mkarr n (aget (ac_v junk))) (mkarr n (aget (ac_mark junk))) (mkarr n (aget (ac_q junk))) 0).

  (* accum.c:80-100 addpos, armas_accum_addpos *)
  Definition addpos (acc : accum T) (index : Z) (value : T) (mark : Z) : M T (accum T) :=
    t <- aread (ac_mark acc) index ;;
    if t <? mark then
      mk <- awrite (ac_mark acc) index mark ;;
      v <- awrite (ac_v acc) index value ;;
      q <- awrite (ac_q acc) (ac_tail acc) index ;;
      ret (mkaccum v mk q (ac_tail acc + 1))
    else
      e <- aread (ac_v acc) index ;;
      v <- awrite (ac_v acc) index (e +' value) ;;
      ret (mkaccum v (ac_mark acc) (ac_q acc) (ac_tail acc)).

  (* accum.c:106-119 armas_accum_scatter with x = line k of A (sparse.h:304-311
     armassp_vector): acc = acc + beta*A[k] *)
  Definition armas_accum_scatter (acc : accum T) (A : sparse T) (k : Z) (beta : T) (mark : Z) : M T (accum T) :=
    p0 <- pt A k ;; p1 <- pt A (k + 1) ;;
    for_acc 0 (p1 - p0) 1 (fun i acc =>
      t <- at_ A (p0 + i) ;; e <- el A (p0 + i) ;;
      addpos acc t (beta *' e) mark) acc.

  (* accum.c:125-150 armas_accum_dot with x = line a of A, y = line b of B *)
  Definition armas_accum_dot (acc : accum T) (k : Z) (A : sparse T) (a : Z) (B : sparse T) (b mark : Z) : M T (accum T) :=
    a0 <- pt A a ;; a1 <- pt A (a + 1) ;; b0 <- pt B b ;; b1 <- pt B (b + 1) ;;
    st <- while_do (S (Z.to_nat (a1 - a0) + Z.to_nat (b1 - b0)))
            (fun st => let '(px, py, v, changed) := st in ret ((px <? a1 - a0) && (py <? b1 - b0)))
            (fun st => let '(px, py, v, changed) := st in
               i <- at_ A (a0 + px) ;; j <- at_ B (b0 + py) ;;
               if i - j =? 0 then
                 x <- el A (a0 + px) ;; y <- el B (b0 + py) ;;
                 ret (px + 1, py + 1, v +' x *' y, true)
               else if i - j <? 0 then ret (px + 1, py, v, changed) else ret (px, py + 1, v, changed))
            (0, 0, zero K, false) ;;
    let '(px, py, v, changed) := st in
    if changed : bool then addpos acc k v mark else ret acc.

  Definition sp_with_lines (C : sparse T) v ptr ix nnz : sparse T :=
    mksparse v (sp_ep C) (sp_rows C) (sp_cols C) nnz ptr ix (sp_nptr C) (sp_size C) (sp_kind C) (sp_nbytes C).

  (* accum.c:156-169 armas_accum_gather *)
  Definition armas_accum_gather (C : sparse T) (alpha : T) (acc : accum T) (ik : Z) : M T (sparse T) :=
    ptr <- awrite (sp_ptr C) ik (sp_nnz C) ;;
    for_acc 0 (ac_tail acc) 1 (fun head C =>
      k <- aread (ac_q acc) head ;;
      ix <- awrite (sp_ix C) (sp_nnz C) k ;;
      e <- aread (ac_v acc) k ;;
      v <- awrite (sp_v C) (sp_nnz C) (alpha *' e) ;;
      if sp_nnz C + 1 <? sp_size C then ret (sp_with_lines C v (sp_ptr C) ix (sp_nnz C + 1)) else fail)
      (sp_with_lines C (sp_v C) ptr (sp_ix C) (sp_nnz C)).

  (* accum.c:175-178 armas_accum_clear *)
  Definition armas_accum_clear (acc : accum T) : M T (accum T) :=
    mk <- for_acc 0 (alen (ac_mark acc)) 1 (fun i mk => awrite mk i (-1)) (ac_mark acc) ;;
    ret (mkaccum (ac_v acc) mk (ac_q acc) (ac_tail acc)).

  (* The frame common to all kernels of add.c and mult.c (for instance
     add.c:38-55): clear the accumulator, fill it with line i of the result, append
     it to C; at the end  C->ptr[last] = C->nnz; C->nptr = last; *)
  Definition spa_lines (C : sparse T) (n : Z) (alpha : T) (body : Z -> accum T -> M T (accum T)) (last : Z) (spa : accum T) : M T (sparse T) :=
    spa <- armas_accum_clear spa ;;
    st <- for_acc 0 n 1 (fun i st =>
            spa <- body i (snd st) ;;
            C <- armas_accum_gather (fst st) alpha spa i ;;
            ret (C, mkaccum (ac_v spa) (ac_mark spa) (ac_q spa) 0))
            (sp_with_lines C (sp_v C) (sp_ptr C) (sp_ix C) 0, spa) ;;
    let C := fst st in
    ptr <- awrite (sp_ptr C) last (sp_nnz C) ;;
    ret (sp_with_counts (sp_with_lines C (sp_v C) ptr (sp_ix C) (sp_nnz C)) (sp_nnz C) last (sp_kind C)).

  (* ------------------------------------------------------------ add.c *)

  (* add.c:42-45,46-49,71-74,...: the elements of line i, times c *)
  Definition add_line (A : sparse T) (c : T) (i : Z) (spa : accum T) : M T (accum T) :=
    p0 <- pt A i ;; p1 <- pt A (i + 1) ;;
    for_acc p0 p1 1 (fun p spa => e <- el A p ;; t <- at_ A p ;; addpos spa t (c *' e) i) spa.

  (* add.c:76-81,103-108,169-174: the elements number i of the first n lines, times c *)
  Definition add_across (A : sparse T) (n : Z) (c : T) (i : Z) (spa : accum T) : M T (accum T) :=
    for_acc 0 n 1 (fun j spa =>
      p <- armassp_nz A j i ;;
      if p <? 0 then ret spa else (e <- el A p ;; addpos spa j (c *' e) i)) spa.

  (* add.c:30-56 add_csr_nn *)
  Definition add_csr_nn (C : sparse T) (alpha : T) (A : sparse T) (beta : T) (B : sparse T) (spa : accum T) : M T (sparse T) :=
    spa_lines C (sp_rows A) (one K) (fun i spa => spa <- add_line A alpha i spa ;; add_line B beta i spa) (sp_rows A) spa.
  (* add.c:59-88 add_csr_nt *)
  Definition add_csr_nt (C : sparse T) (alpha : T) (A : sparse T) (beta : T) (B : sparse T) (spa : accum T) : M T (sparse T) :=
    spa_lines C (sp_rows A) (one K) (fun i spa => spa <- add_line A alpha i spa ;; add_across B (sp_rows B) beta i spa) (sp_rows A) spa.
  (* add.c:91-119 add_csr_tn; line 106 multiplies the elements of A by beta *)
  Definition add_csr_tn (C : sparse T) (alpha : T) (A : sparse T) (beta : T) (B : sparse T) (spa : accum T) : M T (sparse T) :=
    spa_lines C (sp_rows A) (one K) (fun i spa => spa <- add_across A (sp_rows A) beta i spa ;; add_line B beta i spa) (sp_rows A) spa.
  (* add.c:123-149 add_csc_nn *)
  Definition add_csc_nn (C : sparse T) (alpha : T) (A : sparse T) (beta : T) (B : sparse T) (spa : accum T) : M T (sparse T) :=
    spa_lines C (sp_cols A) (one K) (fun i spa => spa <- add_line A alpha i spa ;; add_line B beta i spa) (sp_cols A) spa.
  (* add.c:152-181 add_csc_nt *)
  Definition add_csc_nt (C : sparse T) (alpha : T) (A : sparse T) (beta : T) (B : sparse T) (spa : accum T) : M T (sparse T) :=
    spa_lines C (sp_cols A) (one K) (fun i spa => spa <- add_line A alpha i spa ;; add_across B (sp_cols B) beta i spa) (sp_cols A) spa.

  (* what a call returns: the return value, the error stored in the configuration
     (0 for none), the matrix C and the workspace descriptor *)
  Record outcome : Type := mkoutcome { o_ret : Z; o_err : Z; o_C : option (sparse T); o_wb : option wbuf }.

  Definition wbytes_of (wb : option wbuf) : Z := match wb with Some w => armas_wbytes w | None => 0 end.

  (* add.c:199-256 armassp_addto_w, A and B not null; C null is None *)
  Definition armassp_addto_w (C : option (sparse T)) (alpha : T) (A : sparse T) (beta : T) (B : sparse T)
    (bits : Z) (wb : option wbuf) (junk : accum T) : M T outcome :=
    if negb (kind_eqb (sp_kind A) (sp_kind B)) then ret (mkoutcome (- ARMAS_EINVAL) 0 C wb)
    else if negb ((sp_rows A =? sp_rows B) && (sp_cols A =? sp_cols B)) then ret (mkoutcome (- ARMAS_ESIZE) 0 C wb)
    else match C with
         | None => fail    (* armas_accum_need(C) reads C->kind *)
         | Some C0 =>
             match wb with
             | Some w =>
                 if w_bytes w =? 0 then ret (mkoutcome 0 0 C (Some (mkwbuf (w_buf w) (armas_accum_need C0) (w_offset w))))
                 else if armas_wbytes w <? armas_accum_need C0 then ret (mkoutcome (- ARMAS_EWORK) ARMAS_EWORK C wb)
                 else
                   match armas_accum_make (armas_accum_dim C0) (armas_wbytes w) junk with
                   | None => fail
                   | Some spa =>
                       let csc := kind_eqb (sp_kind A) CSC in
                       let s := Z.land bits (Z.lor ARMAS_TRANSA ARMAS_TRANSB) in
                       C1 <- (if s =? ARMAS_TRANSB then (if csc then add_csc_nt else add_csr_nt) C0 alpha A beta B spa
                              else if s =? ARMAS_TRANSA then (if csc then ret C0 else add_csr_tn C0 alpha A beta B spa)
                              else (if csc then add_csc_nn else add_csr_nn) C0 alpha A beta B spa) ;;
                       ret (mkoutcome 0 0 (Some C1) (Some (armas_wsetpos w (armas_wpos w))))
                   end
             | None =>
                 if 0 <? armas_accum_need C0 then ret (mkoutcome (- ARMAS_EWORK) ARMAS_EWORK C wb)
                 else fail    (* armas_wptr(NULL): a null accumulator of dimension 0; not modelled further *)
             end
         end.

  (* add.c:264-294 armassp_add, A and B not null, up to the first call of
     armassp_addto_w, which is made with C = NULL; the rest is reached only when
     that call returns a value that is not negative.  Returns the new matrix *)
  Definition armassp_add (mem_ok : Z -> bool) (alpha : T) (A : sparse T) (beta : T) (B : sparse T) (bits : Z) (junk : accum T) : M T (option (sparse T)) :=
    o <- armassp_addto_w None alpha A beta B bits (Some (mkwbuf 0 0 0)) junk ;;
    if o_ret o <? 0 then ret None
    else
      match armassp_new K sz mem_ok (sp_rows A) (sp_cols A) (sp_nnz A + sp_nnz B) (sp_kind A) with
      | None => ret None
      | Some C =>
          let bytes := match o_wb o with Some w => w_bytes w | None => 0 end in
          o' <- armassp_addto_w (Some C) alpha A beta B bits (Some (mkwbuf 1 bytes 0)) junk ;;
          ret (o_C o')
      end.

  (* ------------------------------------------------------------ mult.c *)

  (* mult.c:46-51,169-172: line i of A times the lines of B: the elements A[p] of
     line i multiply the lines B[ix[p]] *)
  Definition mult_scatter (A B : sparse T) (i : Z) (spa : accum T) : M T (accum T) :=
    p0 <- pt A i ;; p1 <- pt A (i + 1) ;;
    for_acc p0 p1 1 (fun p spa => t <- at_ A p ;; e <- el A p ;; armas_accum_scatter spa B t e i) spa.

  (* mult.c:77-80,198-201: products of line i of A with all n lines of B;
     sw: the operands are passed in the other order *)
  Definition mult_dots (sw : bool) (A B : sparse T) (n i : Z) (spa : accum T) : M T (accum T) :=
    for_acc 0 n 1 (fun k spa => if sw then armas_accum_dot spa k B k A i i else armas_accum_dot spa k A i B k i) spa.

  (* mult.c:105-110,226-231: the lines j of B times the elements A[j][i] *)
  Definition mult_across (A B : sparse T) (n i : Z) (spa : accum T) : M T (accum T) :=
    for_acc 0 n 1 (fun j spa =>
      p <- armassp_nz A j i ;;
      if p <? 0 then ret spa else (e <- el A p ;; armas_accum_scatter spa B j e i)) spa.

  (* mult.c:134-144,255-265: element j of line i is the sum over the elements of
     line j of B with the elements A[k][i] *)
  Definition mult_tt (A B : sparse T) (n i : Z) (spa : accum T) : M T (accum T) :=
    for_acc 0 n 1 (fun j spa =>
      b0 <- pt B j ;; b1 <- pt B (j + 1) ;;
      for_acc b0 b1 1 (fun p1 spa =>
        k <- at_ B p1 ;; p0 <- armassp_nz A k i ;;
        if p0 <? 0 then ret spa else (x <- el A p0 ;; y <- el B p1 ;; addpos spa j (x *' y) i)) spa) spa.

  (* mult.c:33-59 mult_csr_nn; line 53 passes 1.0 in place of alpha *)
  Definition mult_csr_nn (C : sparse T) (alpha : T) (A B : sparse T) (spa : accum T) : M T (sparse T) :=
    spa_lines C (sp_rows A) (one K) (mult_scatter A B) (sp_rows A) spa.
  (* mult.c:63-88 mult_csr_nt *)
  Definition mult_csr_nt (C : sparse T) (alpha : T) (A B : sparse T) (spa : accum T) : M T (sparse T) :=
    spa_lines C (sp_rows A) alpha (mult_dots false A B (sp_rows B)) (sp_rows A) spa.
  (* mult.c:92-118 mult_csr_tn; i runs to A->rows *)
  Definition mult_csr_tn (C : sparse T) (alpha : T) (A B : sparse T) (spa : accum T) : M T (sparse T) :=
    spa_lines C (sp_rows A) alpha (mult_across A B (sp_rows A)) (sp_rows A) spa.
  (* mult.c:122-152 mult_csr_tt *)
  Definition mult_csr_tt (C : sparse T) (alpha : T) (A B : sparse T) (spa : accum T) : M T (sparse T) :=
    spa_lines C (sp_rows C) alpha (mult_tt A B (sp_cols C)) (sp_rows A) spa.
  (* mult.c:156-180 mult_csc_nn *)
  Definition mult_csc_nn (C : sparse T) (alpha : T) (A B : sparse T) (spa : accum T) : M T (sparse T) :=
    spa_lines C (sp_cols B) alpha (mult_scatter B A) (sp_cols B) spa.
  (* mult.c:184-209 mult_csc_tn *)
  Definition mult_csc_tn (C : sparse T) (alpha : T) (A B : sparse T) (spa : accum T) : M T (sparse T) :=
    spa_lines C (sp_cols B) alpha (mult_dots true B A (sp_cols A)) (sp_cols B) spa.
  (* mult.c:213-239 mult_csc_nt; i runs to B->cols *)
  Definition mult_csc_nt (C : sparse T) (alpha : T) (A B : sparse T) (spa : accum T) : M T (sparse T) :=
    spa_lines C (sp_cols B) alpha (mult_across B A (sp_cols B)) (sp_cols C) spa.
  (* mult.c:243-273 mult_csc_tt; i runs to C->rows and j to C->cols *)
  Definition mult_csc_tt (C : sparse T) (alpha : T) (A B : sparse T) (spa : accum T) : M T (sparse T) :=
    spa_lines C (sp_rows C) alpha (mult_tt B A (sp_cols C)) (sp_cols C) spa.

  (* mult.c:306-393 armassp_multto_w, w not null.  The order in which the
     arguments armas_wreserve_bytes(w, sz) and armas_wbytes(w) of line 362 are
     evaluated is not specified in C: ltr tells whether the reservation is made
     first.  An accumulator left uninitialized by armas_accum_make is used
     afterwards: undefined behaviour *)
  Definition armassp_multto_w (ltr : bool) (C : sparse T) (alpha : T) (A B : sparse T) (flags : Z) (w : wbuf) (junk : accum T) : M T outcome :=
    let s := Z.land flags (Z.lor ARMAS_TRANSA ARMAS_TRANSB) in
    let ta := (s =? Z.lor ARMAS_TRANSA ARMAS_TRANSB) || (s =? ARMAS_TRANSA) in
    let tb := (s =? Z.lor ARMAS_TRANSA ARMAS_TRANSB) || (s =? ARMAS_TRANSB) in
    let m := if ta then sp_cols A else sp_rows A in
    let n := if tb then sp_rows B else sp_cols B in
    let ok := ((if ta then sp_rows A else sp_cols A) =? (if tb then sp_cols B else sp_rows B)) && (sp_rows C =? m) && (sp_cols C =? n) in
    if negb ok then ret (mkoutcome (-1) ARMAS_EINVAL (Some C) (Some w))
    else if w_bytes w =? 0 then ret (mkoutcome 0 0 (Some C) (Some (mkwbuf (w_buf w) (armas_accum_need C) (w_offset w))))
    else if n =? 0 then fail    (* division by zero, line 348 *)
    else
      let cnz := sp_nnz A * sp_nnz B / n in
      if sp_nbytes C <? armassp_bytes_needed sz m n cnz (sp_kind C) then ret (mkoutcome (-2) ARMAS_ESIZE (Some C) (Some w))
      else if armas_wbytes w <? armas_accum_need C then ret (mkoutcome (-3) ARMAS_EWORK (Some C) (Some w))
      else
        let w' := snd (armas_wreserve_bytes w (armas_accum_need C)) in
        match armas_accum_make (armas_accum_dim C) (armas_wbytes (if ltr then w' else w)) junk with
        | None => fail
        | Some spa =>
            let csc := kind_eqb (sp_kind C) CSC in
            C1 <- (if ta then (if tb then (if csc then mult_csc_tt else mult_csr_tt) else (if csc then mult_csc_tn else mult_csr_tn))
                   else (if tb then (if csc then mult_csc_nt else mult_csr_nt) else (if csc then mult_csc_nn else mult_csr_nn))) C alpha A B spa ;;
            ret (mkoutcome 0 0 (Some C1) (Some w'))
        end.

  (* mult.c:413-434 armassp_mult, A and B not null: a matrix is allocated and
     returned; A->cols = 0 divides by zero *)
  Definition armassp_mult (mem_ok : Z -> bool) (alpha : T) (A B : sparse T) (flags : Z) : M T (option (sparse T)) :=
    if negb (kind_eqb (sp_kind A) (sp_kind B)) || kind_eqb (sp_kind A) COO then ret None
    else if sp_cols A =? 0 then fail
    else ret (armassp_new K sz mem_ok (sp_rows A) (sp_cols B) (sp_nnz A * sp_nnz B / sp_cols A) (sp_kind A)).
End SpAcc.
