(* MSparse.v: model of the sparse matrix type and of src/sparse/{util,convert,
   sort,copy,dense}.c with the inline functions of src/include/sparse.h and
   src/sparse/splocal.h they use.

   The arrays owned by a sparse matrix are modelled as functional arrays with a
   length: reading or writing outside the length is undefined behaviour (fail).
   In the C code the arrays v, ptr and ix lie one after the other in one block;
   the model keeps them apart, so an access that runs over the end of one array
   into the next is undefined behaviour as it is in C.  A function that changes
   a matrix returns the changed matrix.  A C pointer that may be null is an
   option.  The memory of the monad M holds dense matrices only. *)
From Coq Require Import ZArith List Bool Lia.
From Verif Require Import Mem MView MNum MFlags.
Import ListNotations.
Local Open Scope Z_scope.
Local Open Scope prog_scope.

(* an array of alen elements *)
Record arr (B : Type) : Type := mkarr { alen : Z; aget : Z -> B }.
Arguments mkarr {B} _ _. Arguments alen {B} _. Arguments aget {B} _ _.

(* a[i] *)
Definition aread {T B} (a : arr B) (i : Z) : M T B :=
  if (0 <=? i) && (i <? alen a) then ret (aget a i) else fail.

(* the array after a[i] = v *)
Definition aset {B} (a : arr B) (i : Z) (v : B) : arr B :=
  mkarr (alen a) (fun k => if k =? i then v else aget a k).

(* a[i] = v *)
Definition awrite {T B} (a : arr B) (i : Z) (v : B) : M T (arr B) :=
  if (0 <=? i) && (i <? alen a) then ret (aset a i v) else fail.

(* src/include/sparse.h:45-49 armassp_type_enum *)
Inductive spkind := CSC | CSR | COO.
Definition kind_eqb (a b : spkind) : bool :=
  match a, b with CSC, CSC => true | CSR, CSR => true | COO, COO => true | _, _ => false end.

(* src/include/sparse.h:52-56 coo_elem_t *)
Record coo (T : Type) : Type := mkcoo { cv : T; ci : Z; cj : Z }.
Arguments mkcoo {T} _ _ _. Arguments cv {T} _. Arguments ci {T} _. Arguments cj {T} _.

(* src/include/sparse.h:61-75 armas_sparse_t; the union elems is kept as the two
   arrays sp_v (compressed) and sp_ep (coordinate list) *)
Record sparse (T : Type) : Type := mksparse {
  sp_v : arr T; sp_ep : arr (coo T);
  sp_rows : Z; sp_cols : Z; sp_nnz : Z;
  sp_ptr : arr Z; sp_ix : arr Z;
  sp_nptr : Z; sp_size : Z; sp_kind : spkind; sp_nbytes : Z
}.
Arguments mksparse {T}. Arguments sp_v {T} _. Arguments sp_ep {T} _.
Arguments sp_rows {T} _. Arguments sp_cols {T} _. Arguments sp_nnz {T} _.
Arguments sp_ptr {T} _. Arguments sp_ix {T} _. Arguments sp_nptr {T} _.
Arguments sp_size {T} _. Arguments sp_kind {T} _. Arguments sp_nbytes {T} _.

(* a loop  for (...; cond; ...) body  with the state a; None when it has not
   ended after fuel rounds *)
Fixpoint while_do {T A} (fuel : nat) (cond : A -> M T bool) (body : A -> M T A) (a : A) : M T A :=
  match fuel with
  | O => fail
  | S n => b <- cond a ;; if b then (a' <- body a ;; while_do n cond body a') else ret a
  end.

(* the C operator && with the right operand evaluated only when needed *)
Definition andM {T} (a : bool) (b : M T bool) : M T bool := if a then b else ret false.

Section Sparse.
  Context {T : Type} (K : num T).
  (* sizeof(DTYPE), and which allocations of the C library succeed *)
  Context (sz : Z) (mem_ok : Z -> bool).

  (* updates of the fields *)
  Definition sp_with_v (A : sparse T) v := mksparse v (sp_ep A) (sp_rows A) (sp_cols A) (sp_nnz A)
    (sp_ptr A) (sp_ix A) (sp_nptr A) (sp_size A) (sp_kind A) (sp_nbytes A).
  Definition sp_with_arrays (A : sparse T) v ptr ix := mksparse v (sp_ep A) (sp_rows A) (sp_cols A) (sp_nnz A)
    ptr ix (sp_nptr A) (sp_size A) (sp_kind A) (sp_nbytes A).
  Definition sp_with_coo (A : sparse T) ep nnz size := mksparse (sp_v A) ep (sp_rows A) (sp_cols A) nnz
    (sp_ptr A) (sp_ix A) (sp_nptr A) size (sp_kind A) (sp_nbytes A).
  (* A->nnz = nnz; A->nptr = nptr; A->kind = kind; *)
  Definition sp_with_counts (A : sparse T) nnz nptr kind := mksparse (sp_v A) (sp_ep A) (sp_rows A) (sp_cols A) nnz
    (sp_ptr A) (sp_ix A) nptr (sp_size A) kind (sp_nbytes A).
  (* A->rows = rows; A->cols = cols; A->kind = kind; *)
  Definition sp_with_shape (A : sparse T) rows cols kind := mksparse (sp_v A) (sp_ep A) rows cols (sp_nnz A)
    (sp_ptr A) (sp_ix A) (sp_nptr A) (sp_size A) kind (sp_nbytes A).

  (* src/include/armas.h:551 __align64, for n >= 0 *)
  Definition sp_align64 (n : Z) : Z := (n + 7) / 8 * 8.

  (* src/include/sparse.h:171-178 armassp_bytes_needed; the arithmetic is done
     in Z (the C code uses size_t) and sizeof(coo_elem_t) = sizeof(DTYPE)+8 *)
  Definition armassp_bytes_needed (rows cols nnz : Z) (kind : spkind) : Z :=
    match kind with
    | COO => nnz * (sz + 8)
    | _ => let n := match kind with CSR => rows | _ => cols end in
           sp_align64 (nnz * sz + 4 * (nnz + n + 1))
    end.

  Definition noarr {B} (d : B) : arr B := mkarr 0 (fun _ => d).
  Definition coo0 : coo T := mkcoo (zero K) 0 0.

  (* the struct as calloc returns it, src/sparse/util.c:117-118; kind 0 is CSC *)
  Definition sp_null : sparse T :=
    mksparse (noarr (zero K)) (noarr coo0) 0 0 0 (noarr 0) (noarr 0) 0 0 CSC 0.

  (* src/include/sparse.h:314-320 armassp_clear; kind is left as it is *)
  Definition armassp_clear (A : sparse T) : sparse T :=
    mksparse (noarr (zero K)) (noarr coo0) 0 0 0 (noarr 0) (noarr 0) 0 0 (sp_kind A) 0.

  (* src/sparse/util.c:54-80 armassp_make on a block filled with zeros (the
     only use here); the length check cannot fail there *)
  Definition armassp_make (rows cols nnz : Z) (kind : spkind) : sparse T :=
    match kind with
    | COO => mksparse (noarr (zero K)) (mkarr nnz (fun _ => coo0)) rows cols 0
               (noarr 0) (noarr 0) 0 nnz kind (armassp_bytes_needed rows cols nnz kind)
    | _ => let nptr := match kind with CSR => rows | _ => cols end in
           mksparse (mkarr nnz (fun _ => zero K)) (noarr coo0) rows cols 0
               (mkarr (nptr + 1) (fun _ => 0)) (mkarr nnz (fun _ => 0)) nptr nnz kind
               (armassp_bytes_needed rows cols nnz kind)
    end.

  (* src/sparse/util.c:99-112 armassp_init *)
  Definition armassp_init (A : sparse T) (rows cols nnz : Z) (kind : spkind) : option (sparse T) :=
    if (rows =? 0) || (cols =? 0) || (nnz =? 0) then Some (armassp_clear A)
    else if mem_ok (armassp_bytes_needed rows cols nnz kind)
         then Some (armassp_make rows cols nnz kind)
         else None.

  (* src/sparse/util.c:114-122 armassp_new; the struct itself is taken to be
     allocated *)
  Definition armassp_new (rows cols nnz : Z) (kind : spkind) : option (sparse T) :=
    armassp_init sp_null rows cols nnz kind.

  (* src/sparse/util.c:128-142 armassp_resize.  memcpy copies nnz elements out
     of the old array into the new one of newsize elements; it is undefined when
     either is shorter *)
  Definition armassp_resize (A : sparse T) (newsize : Z) : M T (Z * sparse T) :=
    match sp_kind A with
    | COO =>
        if negb (mem_ok (newsize * (sz + 8))) then ret (-1, A)
        else if (sp_nnz A <=? newsize) && (sp_nnz A <=? alen (sp_ep A)) then
          ret (0, sp_with_coo A
                    (mkarr newsize (fun k => if k <? sp_nnz A then aget (sp_ep A) k else coo0))
                    (sp_nnz A) newsize)
        else fail
    | _ => ret (-1, A)
    end.

  (* src/sparse/util.c:148-162 armassp_append *)
  Definition armassp_append (A : sparse T) (m n : Z) (v : T) : M T (Z * sparse T) :=
    match sp_kind A with
    | COO =>
        r <- (if sp_nnz A =? sp_size A then armassp_resize A (sp_size A + 64) else ret (0, A)) ;;
        if fst r <? 0 then ret (-1, snd r)
        else
          let A := snd r in
          ep <- awrite (sp_ep A) (sp_nnz A) (mkcoo v m n) ;;
          ret (0, sp_with_coo A ep (sp_nnz A + 1) (sp_size A))
    | _ => ret (-1, A)
    end.

  (* ---- src/sparse/sort.c ---- *)

  (* src/sparse/sort.c:64-71: the inner loop of simple_sort, which moves the
     element at off+j to its place; off is the offset of the arrays passed *)
  Definition sort_inner (off k : Z) (st : arr Z * arr T) : M T (arr Z * arr T) :=
    r <- while_do (S (Z.to_nat k))
      (fun s => let '(j, ix, v) := s in
         andM (0 <? j) (a <- aread ix (off + j) ;; b <- aread ix (off + (j - 1)) ;; ret (a <? b)))
      (fun s => let '(j, ix, v) := s in
         i0 <- aread ix (off + j) ;;
         e0 <- aread v (off + j) ;;
         i1 <- aread ix (off + (j - 1)) ;;
         ix <- awrite ix (off + j) i1 ;;
         e1 <- aread v (off + (j - 1)) ;;
         v <- awrite v (off + j) e1 ;;
         ix <- awrite ix (off + (j - 1)) i0 ;;
         v <- awrite v (off + (j - 1)) e0 ;;
         ret (j - 1, ix, v))
      (k, fst st, snd st) ;;
    let '(_, ix, v) := r in ret (ix, v).

  (* src/sparse/sort.c:58-73 simple_sort(&index[off], &elems[off], n) *)
  Definition simple_sort (off n : Z) (st : arr Z * arr T) : M T (arr Z * arr T) :=
    for_acc 1 n 1 (fun k st => sort_inner off k st) st.

  (* src/sparse/sort.c:75-84 compressed_sort *)
  Definition compressed_sort (A : sparse T) : M T (sparse T) :=
    st <- for_acc 0 (sp_nptr A) 1 (fun k st =>
            p0 <- aread (sp_ptr A) k ;;
            p1 <- aread (sp_ptr A) (k + 1) ;;
            simple_sort p0 (p1 - p0) st) (sp_ix A, sp_v A) ;;
    ret (sp_with_arrays A (snd st) (sp_ptr A) (fst st)).

  (* src/sparse/sort.c:128-134 armassp_sort *)
  Definition armassp_sort (A : sparse T) : M T (Z * sparse T) :=
    match sp_kind A with
    | COO => ret (-1, A)
    | _ => A' <- compressed_sort A ;; ret (0, A')
    end.

  (* ---- src/sparse/convert.c ---- *)

  (* the loops that turn counts into start positions: for k in 0..n-1,
     t = ptr[k]; ptr[k] = sum; sum += t   (src/sparse/convert.c:49-53, 98-102,
     143-147, 182-186) *)
  Definition cumulate (n : Z) (ptr : arr Z) : M T (arr Z * Z) :=
    for_acc 0 n 1 (fun k st =>
      t <- aread (fst st) k ;;
      ptr <- awrite (fst st) k (snd st) ;;
      ret (ptr, snd st + t)) (ptr, 0).

  (* now restore A->ptr: t = ptr[i]; ptr[i] = sum; sum = t  (src/sparse/convert.c:
     68-72, 117-121, 159-163, 198-202) *)
  Definition restore (n : Z) (ptr : arr Z) : M T (arr Z * Z) :=
    for_acc 0 n 1 (fun k st =>
      t <- aread (fst st) k ;;
      ptr <- awrite (fst st) k (snd st) ;;
      ret (ptr, t)) (ptr, 0).

  (* put the pair (i, e) at the next free position of line j of the result:
     ix[ptr[j]] = i; v[ptr[j]] = e; ptr[j]++ *)
  Definition place (j i : Z) (e : T) (st : arr Z * arr Z * arr T) : M T (arr Z * arr Z * arr T) :=
    let '(ptr, ix, v) := st in
    p <- aread ptr j ;;
    ix <- awrite ix p i ;;
    v <- awrite v p e ;;
    ptr <- awrite ptr j (p + 1) ;;
    ret (ptr, ix, v).

  (* src/sparse/convert.c:34-78 csr_to_csc (nA = A->cols, nB = B->rows, kind =
     CSC) and :83-127 csc_to_csr (nA = A->rows, nB = B->cols, kind = CSR) *)
  Definition cs_flip (nA nB : Z) (kind : spkind) (A B : sparse T) : M T (sparse T) :=
    ptr <- for_acc 0 nA 1 (fun i ptr => awrite ptr i 0) (sp_ptr A) ;;
    ptr <- for_acc 0 (sp_nnz B) 1 (fun k ptr =>
             c <- aread (sp_ix B) k ;;
             t <- aread ptr c ;;
             awrite ptr c (t + 1)) ptr ;;
    st <- cumulate nA ptr ;;
    ptr <- awrite (fst st) nA (snd st) ;;
    st <- for_acc 0 nB 1 (fun k st =>
            p0 <- aread (sp_ptr B) k ;;
            p1 <- aread (sp_ptr B) (k + 1) ;;
            for_acc p0 p1 1 (fun p st =>
              c <- aread (sp_ix B) p ;;
              e <- aread (sp_v B) p ;;
              place c k e st) st) (ptr, sp_ix A, sp_v A) ;;
    let '(ptr, ix, v) := st in
    st <- restore nA ptr ;;
    ptr <- awrite (fst st) nA (sp_nnz B) ;;
    ret (sp_with_counts (sp_with_arrays A v ptr ix) (sp_nnz B) nA kind).

  Definition csr_to_csc (A B : sparse T) := cs_flip (sp_cols A) (sp_rows B) CSC A B.
  Definition csc_to_csr (A B : sparse T) := cs_flip (sp_rows A) (sp_cols B) CSR A B.

  (* src/sparse/convert.c:130-167 csc_convert (line = j, nA = A->cols, nB =
     B->cols) and :169-206 csr_convert (line = i, nA = A->rows, nB = B->rows) *)
  Definition cs_convert (line other : coo T -> Z) (nA nB : Z) (kind : spkind)
    (A B : sparse T) : M T (sparse T) :=
    ptr <- for_acc 0 (sp_nnz B) 1 (fun k ptr =>
             e <- aread (sp_ep B) k ;;
             t <- aread ptr (line e) ;;
             awrite ptr (line e) (t + 1)) (sp_ptr A) ;;
    st <- cumulate (nB + 1) ptr ;;
    st <- for_acc 0 (sp_nnz B) 1 (fun k st =>
            e <- aread (sp_ep B) k ;;
            place (line e) (other e) (cv e) st) (fst st, sp_ix A, sp_v A) ;;
    let '(ptr, ix, v) := st in
    st <- restore nA ptr ;;
    ret (sp_with_counts (sp_with_arrays A v (fst st) ix) (sp_nnz B) nB kind).

  Definition csc_convert (A B : sparse T) := cs_convert cj ci (sp_cols A) (sp_cols B) CSC A B.
  Definition csr_convert (A B : sparse T) := cs_convert ci cj (sp_rows A) (sp_rows B) CSR A B.

  (* src/sparse/splocal.h:111-128 armassp_test_alloc and armassp_test_structure.
     The differences of the pointers elems, ptr and ix are the lengths of the
     arrays between them; for a coordinate list the pointers are null and the
     difference is undefined *)
  Definition armassp_test_alloc (A : sparse T) (rows cols nnz : Z) (kind : spkind) : bool :=
    armassp_bytes_needed rows cols nnz kind <=? sp_nbytes A.

  Definition armassp_test_structure (A : sparse T) (rows cols nnz : Z) (kind : spkind) : M T bool :=
    match sp_kind A with
    | COO => fail
    | _ => let n := match kind with CSR => rows | _ => cols end in
           ret ((n + 1 =? alen (sp_ptr A)) && (nnz =? alen (sp_v A)))
    end.

  (* src/sparse/convert.c:223-265 armassp_convert_to with B not null.  After the
     structure test armassp_init_arrays (splocal.h:146-155) finds the arrays
     where they are and sets nptr *)
  Definition armassp_convert_to (A : option (sparse T)) (B : sparse T) (target : spkind)
    : M T (option (sparse T)) :=
    match target with
    | COO => ret None
    | _ =>
        match A with
        | None => fail
        | Some A =>
            if negb (armassp_test_alloc A (sp_rows B) (sp_cols B) (sp_nnz B) target) then ret None
            else
              ok <- armassp_test_structure A (sp_rows B) (sp_cols B) (sp_nnz B) target ;;
              if negb ok then ret None
              else
                let n := match target with CSR => sp_rows B | _ => sp_cols B end in
                let A := sp_with_counts A (sp_nnz A) n (sp_kind A) in
                match sp_kind B with
                | COO =>
                    A <- (match target with CSR => csr_convert A B | _ => csc_convert A B end) ;;
                    r <- armassp_sort A ;;
                    ret (Some (snd r))
                | CSC =>
                    match target with
                    | CSR => A <- csc_to_csr A B ;; ret (Some A)
                    | _ => ret (Some A)
                    end
                | CSR =>
                    match target with
                    | CSC => A <- csr_to_csc A B ;; ret (Some A)
                    | _ => ret (Some A)
                    end
                end
        end
    end.

  (* src/sparse/convert.c:279-284 armassp_convert *)
  Definition armassp_convert (B : sparse T) (target : spkind) : M T (option (sparse T)) :=
    armassp_convert_to (armassp_new (sp_rows B) (sp_cols B) (sp_nnz B) target) B target.

  (* src/sparse/convert.c:298-319 armassp_transpose_to *)
  Definition armassp_transpose_to (A : option (sparse T)) (B : sparse T) : M T (option (sparse T)) :=
    match A, sp_kind B with
    | None, _ => ret None
    | _, COO => ret None
    | Some _, _ =>
        let t := match sp_kind B with CSC => CSR | _ => CSC end in
        r <- armassp_convert_to A B t ;;
        match r with
        | None => ret None
        | Some A => ret (Some (sp_with_shape A (sp_cols B) (sp_rows B) (sp_kind B)))
        end
    end.

  (* src/sparse/convert.c:321-327 armassp_transpose *)
  Definition armassp_transpose (B : sparse T) : M T (option (sparse T)) :=
    let t := match sp_kind B with CSC => CSR | _ => CSC end in
    armassp_transpose_to (armassp_new (sp_rows B) (sp_cols B) (sp_nnz B) t) B.

  (* ---- src/sparse/copy.c ---- *)

  (* src/sparse/copy.c:30-63 armassp_copy_to; A and B of the same kind are
     needed for the union elems to mean the same, otherwise the model fails *)
  Definition armassp_copy_to (A : option (sparse T)) (B : sparse T) : M T (option (sparse T)) :=
    match A with
    | None => ret None
    | Some A =>
        if sp_nbytes A <? armassp_bytes_needed (sp_rows B) (sp_cols B) (sp_nnz B) (sp_kind B)
        then ret None
        else match sp_kind B with
             | COO =>
                 ep <- for_acc 0 (sp_nnz B) 1 (fun k ep =>
                         e <- aread (sp_ep B) k ;; awrite ep k e) (sp_ep A) ;;
                 ret (Some (sp_with_coo A ep (sp_nnz A) (sp_size A)))
             | _ =>
                 st <- for_acc 0 (sp_nnz B) 1 (fun k st =>
                         e <- aread (sp_v B) k ;;
                         v <- awrite (snd st) k e ;;
                         i <- aread (sp_ix B) k ;;
                         ix <- awrite (fst st) k i ;;
                         ret (ix, v)) (sp_ix A, sp_v A) ;;
                 ptr <- for_acc 0 (sp_nptr B + 1) 1 (fun k ptr =>
                         p <- aread (sp_ptr B) k ;; awrite ptr k p) (sp_ptr A) ;;
                 ret (Some (sp_with_counts (sp_with_arrays A (snd st) ptr (fst st))
                              (sp_nnz B) (sp_nptr B) (sp_kind A)))
             end
    end.

  (* src/sparse/copy.c:70-74 armassp_mkcopy *)
  Definition armassp_mkcopy (B : sparse T) : M T (option (sparse T)) :=
    armassp_copy_to (armassp_new (sp_rows B) (sp_cols B) (sp_nnz B) (sp_kind B)) B.

  (* ---- src/sparse/dense.c ---- *)

  (* src/sparse/dense.c:26-64 armassp_todense; armas_set is MView's *)
  Definition armassp_todense (A : view) (B : sparse T) : M T Z :=
    if negb (rows A =? sp_rows B) || negb (cols A =? sp_cols B) then ret (-1)
    else
      (match sp_kind B with
       | COO =>
           for_up 0 (sp_nnz B) 1 (fun k =>
             e <- aread (sp_ep B) k ;; armas_set A (ci e) (cj e) (cv e))
       | CSC =>
           for_up 0 (sp_nptr B) 1 (fun j =>
             p0 <- aread (sp_ptr B) j ;;
             p1 <- aread (sp_ptr B) (j + 1) ;;
             for_up p0 p1 1 (fun k =>
               i <- aread (sp_ix B) k ;; e <- aread (sp_v B) k ;; armas_set A i j e))
       | CSR =>
           for_up 0 (sp_nptr B) 1 (fun i =>
             p0 <- aread (sp_ptr B) i ;;
             p1 <- aread (sp_ptr B) (i + 1) ;;
             for_up p0 p1 1 (fun k =>
               j <- aread (sp_ix B) k ;; e <- aread (sp_v B) k ;; armas_set A i j e))
       end) ;;
      ret 0.
End Sparse.
