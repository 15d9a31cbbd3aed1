(* MMm.v: model of the Matrix Market files: src/io/iomm.c (dense matrices) and
   src/sparse/io.c (coordinate lists).  A file is the list of the characters that
   remain to be read; the characters are not zero.  The conversions of floating-point
   numbers by the C library are parameters. *)
From Coq Require Import String Ascii.
From Coq Require Import ZArith Bool List.
From Verif Require Import MBase Mem MNum MFlags MSparse SpecSparse MIo.
Import ListNotations.
Local Open Scope Z_scope.

(* src/include/armas.h:158-167, 55 *)
Definition MM_HEADER : Z := 0x1.
Definition MM_MATRIX : Z := 0x2.
Definition MM_REAL : Z := 0x4.
Definition MM_COMPLEX : Z := 0x8.
Definition MM_INTEGER : Z := 0x10.
Definition MM_ARRAY : Z := 0x20.
Definition MM_COORDINATE : Z := 0x40.
Definition MM_SYMMETRIC : Z := 0x80.
Definition MM_HERMITIAN : Z := 0x100.
Definition MM_GENERAL : Z := 0x200.


(* iomm.c:90-102, sparse/io.c:49-61 __mmkeys *)
Definition mmkeys : list (list Z * nat * Z) :=
  [(codes "matrix", 7%nat, MM_MATRIX); (codes "real", 5%nat, MM_REAL); (codes "complex", 8%nat, MM_COMPLEX);
   (codes "integer", 8%nat, MM_INTEGER); (codes "array", 6%nat, MM_ARRAY); (codes "coordinate", 11%nat, MM_COORDINATE);
   (codes "symmetric", 10%nat, MM_SYMMETRIC); (codes "hermitian", 10%nat, MM_HERMITIAN); (codes "general", 7%nat, MM_GENERAL);
   (codes "%%matrixmarket", 15%nat, MM_HEADER)].

(* strncmp(a, b, n) == 0 *)
Fixpoint strneq (n : nat) (a b : list Z) : bool :=
  match n with
  | O => true
  | S n' => match a, b with
            | [], [] => true
            | x :: a', y :: b' => (x =? y) && strneq n' a' b'
            | _, _ => false
            end
  end.

(* iomm.c:129-137, sparse/io.c:63-71 find_key *)
Fixpoint find_key (keys : list (list Z * nat * Z)) (key : list Z) : Z :=
  match keys with
  | [] => 0
  | (s, n, code) :: keys' => if strneq n key s then code else find_key keys' key
  end.

(* a line with its end, and what follows *)
Fixpoint split_line (f : list Z) : list Z * list Z :=
  match f with
  | [] => ([], [])
  | c :: f' => if c =? cNL then ([c], f') else let r := split_line f' in (c :: fst r, snd r)
  end.
(* getline of the C library; None is -1 *)
Definition getline (f : list Z) : option (list Z * list Z) :=
  match f with [] => None | _ => Some (split_line f) end.
(* fgets with a buffer of 512 characters *)
Definition fgets (f : list Z) : option (list Z * list Z) :=
  match f with
  | [] => None
  | _ => let r := split_line f in
         if Z.of_nat (List.length (fst r)) <=? 511 then Some r else Some (firstn 511 f, skipn 511 f)
  end.

(* the text before the first end of line (strchr(iob, 0x0a), *s = 0) *)
Fixpoint before_nl (l : list Z) : list Z :=
  match l with [] => [] | c :: l' => if c =? cNL then [] else c :: before_nl l' end.
(* the results of strsep(&s, " ") until it returns a null pointer *)
Fixpoint strsep_all (l : list Z) : list (list Z) :=
  match l with
  | [] => [[]]
  | c :: l' => if c =? cSP then [] :: strsep_all l'
               else match strsep_all l' with t :: ts => (c :: t) :: ts | [] => [[c]] end
  end.

(* iomm.c:171-206, sparse/io.c:104-141: the tokens of the banner; types lists the
   element types that are accepted (iomm.c:193 real and complex, sparse/io.c:127
   real).  None is the return of -1 *)
Fixpoint banner_toks (types : list Z) (n : Z) (code : Z) (toks : list (list Z)) : option Z :=
  match toks with
  | [] => Some code
  | tok :: toks' =>
      let nc := find_key mmkeys (map tolower tok) in
      if n =? 0 then (if nc =? MM_HEADER then banner_toks types (n + 1) code toks' else None)
      else if n =? 1 then (if nc =? MM_MATRIX then banner_toks types (n + 1) (Z.lor code nc) toks' else None)
      else if n =? 2 then (if (nc =? MM_ARRAY) || (nc =? MM_COORDINATE) then banner_toks types (n + 1) (Z.lor code nc) toks' else None)
      else if n =? 3 then (if existsb (Z.eqb nc) types then banner_toks types (n + 1) (Z.lor code nc) toks' else None)
      else if n =? 4 then (if (nc =? MM_SYMMETRIC) || (nc =? MM_HERMITIAN) || (nc =? MM_GENERAL) then Some (Z.lor code nc) else None)
      else Some code
  end.

(* iomm.c:152-209 __mmread_banner, sparse/io.c:85-144 armasio_mmread_banner: the type
   code, or None for -1, and the rest of the file.  A line of one character has the
   terminating zero as second one *)
Definition mmread_banner (types : list Z) (f : list Z) : option Z * list Z :=
  match fgets f with
  | None => (None, f)
  | Some (iob, f') =>
      if negb (nth 0 iob 0 =? cPCT) && negb (nth 1 iob 0 =? cPCT) then (None, f')
      else (banner_toks types 0 0 (strsep_all (before_nl iob)), f')
  end.

(* iomm.c:223-226, sparse/io.c:158-161: the first line that is not a comment.  When
   the file ends before, the contents of the buffer are indeterminate: None *)
Fixpoint skip_comments (fuel : nat) (f : list Z) : option (list Z * list Z) :=
  match fuel with
  | O => None
  | S fuel' => match getline f with
               | None => None
               | Some (iob, f') => if nth 0 iob 0 =? cPCT then skip_comments fuel' f' else Some (iob, f')
               end
  end.

(* cp = endptr + 1 leaves the string when endptr is at its end *)
Definition past (l : list Z) : option (list Z) := match l with [] => None | _ :: l' => Some l' end.

(* iomm.c:215-243 __mmread_size, sparse/io.c:150-178 armasio_mmread_size.  A size that
   does not fit int is taken to be undefined *)
Definition mmread_size (f : list Z) (typecode : Z) : option (Z * Z * Z * list Z) :=
  obind (skip_comments (S (List.length f)) f) (fun '(iob, f') =>
    if isspace (nth 0 iob 0) || isdigit (nth 0 iob 0) then
      let '(m, e1) := strtol iob in
      obind (i32 m) (fun m => obind (past e1) (fun cp =>
      let '(n, e2) := strtol cp in
      obind (i32 n) (fun n =>
      if has typecode MM_COORDINATE then
        obind (past e2) (fun cp => obind (i32 (fst (strtol cp))) (fun nnz => Some (m, n, nnz, f')))
      else Some (m, n, 0, f'))))
    else Some (0, 0, 0, f')).

(* sscanf with one conversion of a number: a value, no match (the variable keeps its
   value), or the end of the input before it (a negative result) *)
Inductive scanned (T : Type) : Type := Got (v : T) | NoMatch | AtEnd.
Arguments Got {T}. Arguments NoMatch {T}. Arguments AtEnd {T}.

Section Mm.
  Context {T : Type} (zero : T).
  Variable fmte : T -> list Z.               (* printf "%.13e" *)
  Variable sscan : list Z -> scanned T.      (* sscanf "%lf" *)

  (* ------------------------------------------------------------ iomm.c *)

  (* iomm.c:76-80 read_line: sscanf "%d %d %lf".  The result is None for a negative
     return, else the three variables, some of which may have kept their values.  A
     number that does not fit int is taken to be undefined *)
  Definition scan_d (l : list Z) : scanned Z * list Z :=
    match skipsp l with
    | [] => (AtEnd, l)
    | c :: l' =>
        let r := strtol l in
        if isdigit c then (Got (fst r), snd r)
        else if ((c =? cMINUS) || (c =? cPLUS)) && (match l' with d :: _ => isdigit d | [] => false end) then (Got (fst r), snd r)
        else (NoMatch, l)
    end.
  Definition read_line (l : list Z) (r c : Z) (v : T) : option (option (Z * Z * T)) :=
    match scan_d l with
    | (AtEnd, _) => Some None
    | (NoMatch, _) => Some (Some (r, c, v))
    | (Got r', l1) =>
        obind (i32 r') (fun r' =>
        match scan_d l1 with
        | (Got c', l2) =>
            obind (i32 c') (fun c' =>
            match sscan l2 with
            | Got v' => Some (Some (r', c', v'))
            | _ => Some (Some (r', c', v))
            end)
        | _ => Some (Some (r', c, v))
        end)
    end.

  (* the variables of the loop of armas_mmload *)
  Record lstate : Type := mkls { l_k : Z; l_r : Z; l_c : Z; l_nc : Z; l_v : T; l_A : dmat T }.

  (* iomm.c:302-331: one line; None is undefined behaviour, Some None the jump to
     endloop *)
  Definition mm_line (typecode m : Z) (line : list Z) (s : lstate) : option (option lstate) :=
    let store (r c nc : Z) (v : T) :=
      obind (if (0 <=? r) && (r <? d_rows (l_A s)) && (0 <=? c) && (c <? d_cols (l_A s)) then d_set (l_A s) r c v else Some (l_A s))
        (fun A => Some (Some (mkls (l_k s + 1) r c nc v A))) in
    if has typecode MM_ARRAY then
      match sscan line with
      | AtEnd => Some None
      | g =>
          let v := match g with Got v => v | _ => l_v s end in
          if has typecode MM_SYMMETRIC then
            if l_k s =? l_nc s then let c := l_c s + 1 in store (c - 1 + 1) c (l_nc s + (m - c)) v
            else store (l_r s + 1) (l_c s) (l_nc s) v
          else store (Z.rem (l_k s) m) (Z.quot (l_k s) m) (l_nc s) v
      end
    else
      obind (read_line line (l_r s) (l_c s) (l_v s)) (fun o =>
        match o with
        | None => Some None
        | Some (r, c, v) => store (r - 1) (c - 1) (l_nc s) v
        end).

  (* iomm.c:299-332: a line is read before the count is tested.  The fuel is the
     length of the file *)
  Fixpoint mm_loop (fuel : nat) (typecode m nelem : Z) (f : list Z) (s : lstate) : option (lstate * list Z) :=
    match fuel with
    | O => None
    | S fuel' =>
        match getline f with
        | None => Some (s, f)
        | Some (line, f') =>
            if l_k s <? nelem then
              if nth 0 line 0 =? cPCT then mm_loop fuel' typecode m nelem f' s
              else obind (mm_line typecode m line s) (fun o =>
                     match o with None => Some (s, f') | Some s' => mm_loop fuel' typecode m nelem f' s' end)
            else Some (s, f')
        end
    end.

  (* what armas_mmload leaves: return value, *flags, the matrix (None: not touched)
     and the rest of the file *)
  Record mmres : Type := mkmm { mm_ret : Z; mm_flags : Z; mm_A : option (dmat T); mm_rest : list Z }.

  (* iomm.c:262-343 armas_mmload for a real type; junk is the value of the
     uninitialized variable v *)
  Definition armas_mmload (flags : Z) (f : list Z) (junk : T) : option mmres :=
    let '(b, f1) := mmread_banner [MM_REAL; MM_COMPLEX] f in
    match b with
    | None => Some (mkmm (-1) flags None f1)
    | Some typecode =>
        if negb (has typecode MM_MATRIX) || negb (has typecode MM_REAL) then Some (mkmm (-1) flags None f1)
        else obind (mmread_size f1 typecode) (fun '(m, n, nnz, f2) =>
          if has typecode MM_SYMMETRIC && negb (m =? n) then Some (mkmm (-1) flags None f2)
          else obind (d_init zero m n) (fun A0 =>
            obind (if has typecode MM_ARRAY then
                     (if has typecode MM_SYMMETRIC then obind (i32 (n * (n + 1))) (fun x => Some (Z.quot x 2)) else i32 (m * n))
                   else Some nnz) (fun nelem =>
            obind (mm_loop (S (List.length f2)) typecode m nelem f2 (mkls 0 (-1) 0 m junk A0)) (fun '(s, f3) =>
              Some (mkmm (if l_k s =? nelem then typecode else -1) flags (Some (l_A s)) f3)))))
    end.

  (* the positions in the order they are written, iomm.c:358-360 *)
  Definition mm_cells (sym : bool) (rows cols : Z) : list (Z * Z) :=
    flat_map (fun j => map (fun k => (k, j)) (zr (if sym then j else 0) rows)) (zr 0 cols).

  (* iomm.c:346-365 armas_mmdump: what is written; its length is returned *)
  Definition armas_mmdump (A : dmat T) (flags : Z) : list Z :=
    let sym := has flags ARMAS_SYMM in
    codes "%%Matrixmarket matrix array real " ++ (if sym then codes "symmetric" else codes "general") ++ [cNL] ++
    dec (d_rows A) ++ [cSP] ++ dec (d_cols A) ++ [cNL] ++
    flat_map (fun p => fmte (d_elt A (fst p) (snd p)) ++ [cNL]) (mm_cells sym (d_rows A) (d_cols A)).

  (* ------------------------------------------------------- sparse/io.c *)

  Context (K : num T) (sz : Z) (mem_ok : Z -> bool).
  Variable strtod : list Z -> T.

  Local Open Scope prog_scope.

  (* sparse/io.c:218-224: one line; comments are not skipped *)
  Definition sp_line (line : list Z) (A : sparse T) : M T (sparse T) :=
    let '(m, e1) := strtol line in
    match i32 m, past e1 with
    | Some m, Some bp =>
        let '(n, e2) := strtol bp in
        match i32 n, past e2 with
        | Some n, Some bp => r <- armassp_append K sz mem_ok A (m - 1) (n - 1) (strtod bp) ;; ret (snd r)
        | _, _ => fail
        end
    | _, _ => fail
    end.

  (* sparse/io.c:217-231 *)
  Fixpoint sp_loop (fuel : nat) (nnz k : Z) (f : list Z) (A : sparse T) : M T (sparse T * list Z) :=
    match fuel with
    | O => fail
    | S fuel' =>
        match getline f with
        | None => ret (A, f)
        | Some (line, f') =>
            if k <? nnz then (A' <- sp_line line A ;; sp_loop fuel' nnz (k + 1) f' A') else ret (A, f')
        end
    end.

  (* sparse/io.c:188-237 armassp_mmload: the matrix (None: a null pointer), *typecode
     (None: not set) and the rest of the file *)
  Definition armassp_mmload (f : list Z) : M T (option (sparse T) * option Z * list Z) :=
    let '(b, f1) := mmread_banner [MM_REAL] f in
    match b with
    | None => ret (None, None, f1)
    | Some tc =>
        if negb (has tc MM_MATRIX) || negb (has tc MM_REAL) || negb (has tc MM_COORDINATE) then ret (None, Some tc, f1)
        else match mmread_size f1 tc with
             | None => fail
             | Some (m, n, nnz, f2) =>
                 match armassp_new K sz mem_ok m n nnz COO with
                 | None => ret (None, Some tc, f2)
                 | Some A => r <- sp_loop (S (List.length f2)) nnz 0 f2 A ;; ret (Some (fst r), Some tc, snd r)
                 end
             end
    end.

  (* sparse/io.c:269, 278, 287: one line for an element *)
  Definition sp_text (i j : Z) (v : T) : list Z := dec i ++ [cSP] ++ dec j ++ [cSP] ++ fmte v ++ [cNL].

  (* sparse/io.c:256-296 armassp_mmdump *)
  Definition armassp_mmdump (A : sparse T) (flags : Z) : M T (list Z) :=
    let head := codes "%%Matrixmarket matrix coordinate real " ++ (if has flags MM_SYMMETRIC then codes "symmetric" else codes "general") ++ [cNL] ++
                dec (sp_rows A) ++ [cSP] ++ dec (sp_cols A) ++ [cSP] ++ dec (sp_nnz A) ++ [cNL] in
    match sp_kind A with
    | COO => for_acc 0 (sp_nnz A) 1 (fun k t => e <- aread (sp_ep A) k ;; ret (t ++ sp_text (ci e) (cj e) (cv e))) head
    | CSR => for_acc 0 (sp_rows A) 1 (fun i t =>
               p0 <- aread (sp_ptr A) i ;; p1 <- aread (sp_ptr A) (i + 1) ;;
               for_acc p0 p1 1 (fun k t => x <- aread (sp_ix A) k ;; v <- aread (sp_v A) k ;; ret (t ++ sp_text i x v)) t) head
    | CSC => for_acc 0 (sp_cols A) 1 (fun j t =>
               p0 <- aread (sp_ptr A) j ;; p1 <- aread (sp_ptr A) (j + 1) ;;
               for_acc p0 p1 1 (fun k t => x <- aread (sp_ix A) k ;; v <- aread (sp_v A) k ;; ret (t ++ sp_text x j v)) t) head
    end.
End Mm.
