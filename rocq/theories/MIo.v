(* MIo.v: model of the character streams (src/io/ios.c, src/include/armas.h:283-371) and of the
   JSON reader and writer (src/io/json_reader.c, json_writer.c, json_base.c).
   A character is its code.  The conversions between numbers and text done by the C library
   (printf "%.14g", strtod, sscanf "%lf") are parameters of the model; "%d", atoi and strtol
   are defined here. *)
From Coq Require Import String Ascii.
From Coq Require Import ZArith Bool List.
From Verif Require Import MBase.
Import ListNotations.
Local Open Scope Z_scope.

(* ------------------------------------------------------------------ *)
(* characters *)

(* codes of the characters of a literal *)
Definition codes (s : string) : list Z :=
  map (fun a => Z.of_N (N_of_ascii a)) (list_ascii_of_string s).

Definition cQUOTE : Z := 34.   (* the double quote *)
Definition cBSL : Z := 92.     (* the backslash *)
Definition cSLASH : Z := 47.
Definition cCOMMA : Z := 44.
Definition cCOLON : Z := 58.
Definition cLBR : Z := 91.
Definition cRBR : Z := 93.
Definition cLBC : Z := 123.
Definition cRBC : Z := 125.
Definition cMINUS : Z := 45.
Definition cPLUS : Z := 43.
Definition cDOT : Z := 46.
Definition cSP : Z := 32.
Definition cTAB : Z := 9.
Definition cNL : Z := 10.
Definition cCR : Z := 13.
Definition cBS : Z := 8.
Definition cPCT : Z := 37.

(* ctype.h in the C locale *)
Definition isdigit (c : Z) : bool := (48 <=? c) && (c <=? 57).
Definition isxdigit (c : Z) : bool :=
  isdigit c || ((65 <=? c) && (c <=? 70)) || ((97 <=? c) && (c <=? 102)).
Definition iscntrl (c : Z) : bool := (c <? 32) || (c =? 127).
Definition isspace (c : Z) : bool := (c =? 32) || ((9 <=? c) && (c <=? 13)).
Definition tolower (c : Z) : Z := if (65 <=? c) && (c <=? 90) then c + 32 else c.

(* storing an int into a char, and reading a (signed) char as an int *)
Definition byte (c : Z) : Z := c mod 256.
Definition schar (b : Z) : Z := if b <? 128 then b else b - 256.

(* ------------------------------------------------------------------ *)
(* streams *)

(* src/include/armas.h:286-300 the function table of a stream over states S;
   armas.h:328-357 armas_ios_getchar, armas_ios_ungetchar, armas_ios_putchar call it *)
Record stream (S : Type) : Type := mkstream {
  getc : S -> Z * S;
  ungetc : S -> Z -> S;
  putc : S -> Z -> Z * S
}.
Arguments getc {S}. Arguments ungetc {S}. Arguments putc {S}.

(* src/include/armas.h:541-545 struct armas_wbuf used as a stream: bytes is the length of the
   buffer *)
Record wstream : Type := mkws { ws_buf : list Z; ws_off : Z }.
Definition ws_bytes (w : wstream) : Z := Z.of_nat (length (ws_buf w)).

(* an access of the buffer at index i, with the bounds of the allocation checked *)
Definition ld (b : list Z) (i : Z) : option Z :=
  if (0 <=? i) && (i <? Z.of_nat (length b)) then nth_error b (Z.to_nat i) else None.
Fixpoint upd (b : list Z) (n : nat) (c : Z) : list Z :=
  match b, n with
  | [], _ => []
  | _ :: b', O => c :: b'
  | x :: b', S n' => x :: upd b' n' c
  end.
Definition st (b : list Z) (i c : Z) : option (list Z) :=
  if (0 <=? i) && (i <? Z.of_nat (length b)) then Some (upd b (Z.to_nat i) (byte c)) else None.

(* src/io/ios.c:45-51 wb_getc *)
Definition wb_getc (w : wstream) : option (Z * wstream) :=
  if ws_off w <? ws_bytes w then
    obind (ld (ws_buf w) (ws_off w)) (fun b => Some (schar b, mkws (ws_buf w) (ws_off w + 1)))
  else Some (-1, w).

(* src/io/ios.c:54-59 wb_ungetc *)
Definition wb_ungetc (w : wstream) (c : Z) : option wstream :=
  if 0 <? ws_off w then
    obind (st (ws_buf w) (ws_off w - 1) c) (fun b => Some (mkws b (ws_off w - 1)))
  else Some w.

(* src/io/ios.c:62-70 wb_putc *)
Definition wb_putc (w : wstream) (c : Z) : option (Z * wstream) :=
  if ws_off w <? ws_bytes w then
    obind (st (ws_buf w) (ws_off w) c) (fun b => Some (c, mkws b (ws_off w + 1)))
  else Some (-1, w).

(* src/io/ios.c:99-109 the table of armas_ios_wbuf; undefined accesses leave the state as it
   is (C48 shows that there are none) *)
Definition or_same (w : wstream) (r : option (Z * wstream)) : Z * wstream :=
  match r with Some x => x | None => (-1, w) end.
Definition wbuf_stream : stream wstream :=
  mkstream wstream (fun w => or_same w (wb_getc w))
    (fun w c => match wb_ungetc w c with Some x => x | None => w end)
    (fun w c => or_same w (wb_putc w c)).

(* src/io/ios.c:80-96 the table of armas_ios_string: no put_char *)
Definition str_stream : stream wstream :=
  mkstream wstream (getc wbuf_stream) (ungetc wbuf_stream) (fun w _ => (-1, w)).

(* src/io/ios.c:10-42 the table of armas_ios_file: fgetc, ungetc and fputc of the C library.
   The state is what is still to be read and what has been written. *)
Definition file : Type := (list Z * list Z)%type.
Definition file_stream : stream file :=
  mkstream file
    (fun s => match fst s with [] => (-1, s) | c :: l => (c, (l, snd s)) end)
    (fun s c => (byte c :: fst s, snd s))
    (fun s c => (byte c, (fst s, snd s ++ [byte c]))).

(* ------------------------------------------------------------------ *)
(* JSON tokens *)

(* src/include/armas.h:173-183 *)
Definition J_STRING : Z := 0x7fffff.
Definition J_INT : Z := 0x800000.
Definition J_NUMBER : Z := 0x800001.
Definition J_TRUE : Z := 0x800002.
Definition J_FALSE : Z := 0x800003.
Definition J_NULL : Z := 0x800004.
Definition J_EINVAL : Z := 0x800005.
Definition J_E2BIG : Z := 0x800006.
Definition J_EOF : Z := 0x800007.

(* src/io/json_reader.c:65-89 *)
Inductive jstate : Set :=
| VALUE | STRING | NUMBER | EXP | EXP1 | ESCAPE | HEX1 | HEX2 | HEX3 | HEX4
| TRUE | TRUE1 | TRUE2 | FALSE | FALSE1 | FALSE2 | FALSE3 | NULL | NULL1 | NULL2.

(* atoi of the C library on the characters of a C string: white space, sign, digits; the value
   is undefined if it does not fit int *)
Fixpoint skipsp (l : list Z) : list Z :=
  match l with c :: l' => if isspace c then skipsp l' else l | [] => [] end.
Fixpoint digits (acc : Z) (l : list Z) : Z * list Z :=
  match l with
  | c :: l' => if isdigit c then digits (acc * 10 + (c - 48)) l' else (acc, l)
  | [] => (acc, [])
  end.
(* value and the rest of the text; strtol(s, &end, 10) without the clamping to long *)
Definition strtol (l : list Z) : Z * list Z :=
  match skipsp l with
  | c :: l' =>
      if c =? cMINUS then
        (match l' with d :: _ => if isdigit d then let r := digits 0 l' in (- fst r, snd r)
                                 else (0, l) | [] => (0, l) end)
      else if c =? cPLUS then
        (match l' with d :: _ => if isdigit d then digits 0 l' else (0, l) | [] => (0, l) end)
      else if isdigit c then digits 0 (c :: l') else (0, l)
  | [] => (0, l)
  end.
Definition atoi (l : list Z) : option Z := i32 (fst (strtol l)).

(* the C string in a buffer: up to the first nul *)
Fixpoint cstr (l : list Z) : list Z :=
  match l with [] => [] | c :: l' => if c =? 0 then [] else c :: cstr l' end.

(* *bp++ = c at index length b of a buffer of len bytes *)
Definition putb (len : Z) (b : list Z) (c : Z) : option (list Z) :=
  if Z.of_nat (length b) <? len then Some (b ++ [byte c]) else None.
(* *bp = 0, the terminator *)
Definition term (len : Z) (b : list Z) : option (list Z) :=
  if Z.of_nat (length b) <? len then Some b else None.

Definition is_delim (c : Z) : bool :=
  (c =? cCOMMA) || (c =? cRBR) || (c =? cRBC) || (c =? cSP) || (c =? cNL) || (c =? cCR) ||
  (c =? cTAB).
Definition is_punct (c : Z) : bool :=
  (c =? cLBC) || (c =? cRBC) || (c =? cLBR) || (c =? cRBR) || (c =? cCOLON) || (c =? cCOMMA).
Definition is_ws (c : Z) : bool := (c =? cSP) || (c =? cNL) || (c =? cTAB) || (c =? cCR).

(* what one pass of the loop of src/io/json_reader.c:103-373 does with the character c >= 0:
   Stop t b u = return t with buffer b, after pushing c back if u;
   Go = go on with a new state, is_frac, lit, buffer *)
Inductive jres : Type :=
| Stop (t : Z) (b : list Z) (u : bool)
| Go (s : jstate) (frac : bool) (lit : list Z) (b : list Z).

Definition jput (len : Z) (b : list Z) (c : Z) (k : list Z -> jres) : option jres :=
  obind (putb len b c) (fun b' => Some (k b')).

Definition jstep (len : Z) (s : jstate) (frac : bool) (lit b : list Z) (c : Z) : option jres :=
  let inval := Some (Stop J_EINVAL b false) in
  match s with
  (* lines 120-131 *)
  | STRING =>
      if c =? cQUOTE then obind (term len b) (fun b => Some (Stop J_STRING b false))
      else if c =? cBSL then Some (Go ESCAPE frac lit b)
      else jput len b c (Go STRING frac lit)
  (* lines 133-159 *)
  | ESCAPE =>
      if (c =? cQUOTE) || (c =? cBSL) || (c =? cSLASH) then jput len b c (Go STRING frac lit)
      else if c =? 98 then jput len b cBS (Go STRING frac lit)
      else if c =? 110 then jput len b cNL (Go STRING frac lit)
      else if c =? 114 then jput len b cCR (Go STRING frac lit)
      else if c =? 116 then jput len b cTAB (Go STRING frac lit)
      else if c =? 117 then Some (Go HEX1 frac lit b)
      else inval
  (* lines 161-191; lit has room for 8 *)
  | HEX1 => if isxdigit c then Some (Go HEX2 frac [c] b) else inval
  | HEX2 => if isxdigit c then Some (Go HEX3 frac (lit ++ [c]) b) else inval
  | HEX3 => if isxdigit c then Some (Go HEX4 frac (lit ++ [c]) b) else inval
  | HEX4 => if isxdigit c then
              if Z.of_nat (length lit) + 1 <? 8 then
                obind (atoi (lit ++ [c])) (fun v =>
                  jput len b (v mod 256) (Go STRING frac (lit ++ [c])))
              else None
            else inval
  (* lines 193-226 *)
  | NUMBER =>
      if is_delim c then obind (term len b) (fun b => Some (Stop J_NUMBER b true))
      else if (c =? 101) || (c =? 69) then jput len b c (Go EXP frac lit)
      else if c =? cDOT then (if frac then inval else jput len b c (Go NUMBER true lit))
      else if isdigit c then jput len b c (Go NUMBER frac lit)
      else inval
  (* lines 228-245 *)
  | EXP =>
      if (c =? cMINUS) || (c =? cPLUS) then jput len b c (Go EXP frac lit)
      else if isdigit c then jput len b c (Go EXP1 frac lit)
      else inval
  (* lines 247-269 *)
  | EXP1 =>
      if is_delim c then obind (term len b) (fun b => Some (Stop J_NUMBER b true))
      else if isdigit c then jput len b c (Go EXP1 frac lit)
      else inval
  (* lines 271-319 *)
  | TRUE => if c =? 114 then Some (Go TRUE1 frac lit b) else inval
  | TRUE1 => if c =? 117 then Some (Go TRUE2 frac lit b) else inval
  | TRUE2 => if c =? 101 then Some (Stop J_TRUE b false) else inval
  | FALSE => if c =? 97 then Some (Go FALSE1 frac lit b) else inval
  | FALSE1 => if c =? 108 then Some (Go FALSE2 frac lit b) else inval
  | FALSE2 => if c =? 115 then Some (Go FALSE3 frac lit b) else inval
  | FALSE3 => if c =? 101 then Some (Stop J_FALSE b false) else inval
  | NULL => if c =? 117 then Some (Go NULL1 frac lit b) else inval
  | NULL1 => if c =? 108 then Some (Go NULL2 frac lit b) else inval
  | NULL2 => if c =? 108 then Some (Stop J_NULL b false) else inval
  (* lines 321-367 *)
  | VALUE =>
      if is_punct c then Some (Stop c b false)
      else if c =? cQUOTE then Some (Go STRING frac lit b)
      else if is_ws c then Some (Go VALUE frac lit b)
      else if c =? 116 then Some (Go TRUE frac lit b)
      else if c =? 102 then Some (Go FALSE frac lit b)
      else if c =? 110 then Some (Go NULL frac lit b)
      else if c =? 0 then Some (Stop J_EOF b false)
      else if iscntrl c then inval
      else if isdigit c || (c =? cMINUS) then jput len b c (Go NUMBER frac lit)
      else Some (Go VALUE frac lit b)
  end.

Section Json.
  Context {S : Type} (io : stream S).

  (* src/io/json_reader.c:103-373 the loop; fuel bounds the characters read.  Result: token,
     contents of the buffer and stream *)
  Fixpoint rt_loop (fuel : nat) (len : Z) (s : jstate) (frac : bool) (lit b : list Z) (x : S)
    : option (Z * list Z * S) :=
    match fuel with
    | O => None
    | Datatypes.S fuel' =>
        let c := fst (getc io x) in
        let x1 := snd (getc io x) in
        if c <? 0 then
          match s with
          | NUMBER | EXP1 => obind (term len b) (fun b => Some (J_NUMBER, b, x1))
          | _ => Some (J_EOF, b, x1)
          end
        else
          obind (jstep len s frac lit b c) (fun r =>
            match r with
            | Stop t b' u => Some (t, b', if u then ungetc io x1 c else x1)
            | Go s' frac' lit' b' =>
                if u64 (len - 1) <=? Z.of_nat (length b') then Some (J_E2BIG, b', x1)
                else rt_loop fuel' len s' frac' lit' b' x1
            end)
    end.

  (* src/io/json_reader.c:95-376 armas_json_read_token *)
  Definition json_read_token (fuel : nat) (len : Z) (x : S) : option (Z * list Z * S) :=
    rt_loop fuel len VALUE false [] [] x.

  (* ---------------------------------------------------------------- *)
  (* writing *)

  (* putting characters one by one, stopping at the first error (JSON_ONERROR) *)
  Fixpoint puts (l : list Z) (x : S) : Z * S :=
    match l with
    | [] => (0, x)
    | c :: l' => let r := putc io x c in if fst r <? 0 then (-1, snd r) else puts l' (snd r)
    end.

  (* src/io/json_writer.c:40-73 the characters written for one character of a string *)
  Definition escape (c : Z) : list Z :=
    if c =? cTAB then [cBSL; 116]
    else if c =? cCR then [cBSL; 114]
    else if c =? cNL then [cBSL; 110]
    else if c =? cBS then [cBSL; 98]
    else if c =? cBSL then [cBSL; cBSL]
    else if c =? cSLASH then [cBSL; cSLASH]
    else if c =? cQUOTE then [cBSL; cQUOTE]
    else if iscntrl c then []
    else [c].

  (* src/io/json_writer.c:39 the characters visited: up to len, stopping at the nul *)
  Definition strchars (s : list Z) (len : Z) : list Z := cstr (firstn (Z.to_nat len) s).

  (* src/io/json_writer.c:36-76 a string token; the result of writing the opening quote is
     not looked at *)
  Definition json_write_string (s : list Z) (len : Z) (x : S) : Z * S :=
    let x1 := snd (putc io x cQUOTE) in
    let r := puts (flat_map escape (strchars s len)) x1 in
    if fst r <? 0 then r else puts [cQUOTE] (snd r).

  (* src/io/json_writer.c:27-35 a simple token *)
  Definition json_write_punct (c : Z) (x : S) : Z * S := puts [c] x.
End Json.

(* "%d" of the C library; the fuel bounds the number of digits *)
Fixpoint dec_pos (fuel : nat) (n : Z) : list Z :=
  match fuel with
  | O => []
  | Datatypes.S f => if n <? 10 then [48 + n] else dec_pos f (n / 10) ++ [48 + n mod 10]
  end.
Definition dec (n : Z) : list Z :=
  let digs m := dec_pos (Datatypes.S (Z.to_nat (Z.log2 m))) m in
  if n <? 0 then cMINUS :: digs (- n) else digs n.

(* "%.14g" of the C library on a double that is a nonnegative integer: at most 14 significant
   digits, rounded half to even, trailing zeros of the fraction removed *)
Definition rhe (n d : Z) : Z :=
  let q := n / d in let r := n mod d in
  if 2 * r <? d then q else if d <? 2 * r then q + 1 else if Z.even q then q else q + 1.
Fixpoint trim0 (l : list Z) : list Z :=   (* of the reversed digits *)
  match l with 48 :: l' => trim0 l' | _ => l end.
Definition g14 (n : Z) : list Z :=
  if n <? 10 ^ 14 then dec n
  else
    let e0 := Z.of_nat (length (dec n)) - 1 in
    let m0 := rhe n (10 ^ (e0 - 13)) in
    let e := if m0 =? 10 ^ 14 then e0 + 1 else e0 in
    let m := if m0 =? 10 ^ 14 then 10 ^ 13 else m0 in
    let ds := dec m in
    let f := rev (trim0 (rev (tl ds))) in
    firstn 1 ds ++ (match f with [] => [] | _ => cDOT :: f end) ++ [101; cPLUS] ++
    (if e <? 10 then 48 :: dec e else dec e).

(* ------------------------------------------------------------------ *)
(* matrices as documents *)

(* a dense matrix with its own storage of rows*cols elements, element (i,j) at i + j*step *)
Record dmat (T : Type) : Type := mkdmat { d_rows : Z; d_cols : Z; d_step : Z; d_mem : Z -> T }.
Arguments mkdmat {T}. Arguments d_rows {T}. Arguments d_cols {T}. Arguments d_step {T}.
Arguments d_mem {T}.

Section Doc.
  Context {T : Type} (zero : T).
  (* strtod, printf("%.14g") and isfinite of the C library on elements *)
  Variable strtod : list Z -> T.
  Variable fmtg : T -> list Z.
  Variable isfinite : T -> bool.

  (* src/base/matrix.c:52-80 armas_init: zeroed storage *)
  Definition d_init (r c : Z) : option (dmat T) :=
    obind (armas_init 64 8 r c) (fun a =>
      Some (mkdmat (a_rows a) (a_cols a) (a_step a) (fun _ => zero))).

  (* src/include/matrix.h:470-474 armas_set_unsafe, with the bounds of the storage checked *)
  Definition d_set (A : dmat T) (i j : Z) (v : T) : option (dmat T) :=
    let p := i + j * d_step A in
    if (0 <=? p) && (p <? d_rows A * d_cols A) then
      Some (mkdmat (d_rows A) (d_cols A) (d_step A)
              (fun q => if q =? p then v else d_mem A q))
    else None.
  Definition d_elt (A : dmat T) (i j : Z) : T := d_mem A (i + j * d_step A).

  Section Stream.
    Context {S : Type} (io : stream S).
    Notation "'Do' X <- A ; B" := (obind A (fun X => B)) (at level 60, X pattern, right associativity).

    (* the size of the token buffer of armas_json_read, src/io/json_base.c:232 *)
    Definition IOB : Z := 64.
    Definition tok (fuel : nat) (x : S) := json_read_token io fuel IOB x.

    (* src/io/json_base.c:114-137 armas_json_read_coord: None inside means return -1 *)
    Definition read_coord (fuel : nat) (x : S) : option (option (Z * Z * T) * S) :=
      Do (t, _, x) <- tok fuel x; if negb (t =? cLBR) then Some (None, x) else
      Do (t, b, x) <- tok fuel x; if negb (t =? J_NUMBER) then Some (None, x) else
      Do row <- atoi (cstr b);
      Do (t, _, x) <- tok fuel x; if negb (t =? cCOMMA) then Some (None, x) else
      Do (t, b, x) <- tok fuel x; if negb (t =? J_NUMBER) then Some (None, x) else
      Do col <- atoi (cstr b);
      Do (t, _, x) <- tok fuel x; if negb (t =? cCOMMA) then Some (None, x) else
      Do (t, b, x) <- tok fuel x; if negb (t =? J_NUMBER) then Some (None, x) else
      let v := strtod (cstr b) in
      Do (t, _, x) <- tok fuel x; if negb (t =? cRBR) then Some (None, x) else
      Some (Some (row, col, v), x).

    (* src/io/json_base.c:139-163 armas_json_read_coorddata; result: count or -1 *)
    Fixpoint read_coorddata (n fuel : nat) (A : dmat T) (count : Z) (x : S)
      : option (Z * dmat T * S) :=
      match n with
      | O => None
      | Datatypes.S n' =>
          Do (r, x) <- read_coord fuel x;
          match r with
          | None => Some (-1, A, x)
          | Some (row, col, v) =>
              let count := count + 1 in
              Do A <- (if (row >=? 0) && (row <=? d_rows A) && (col >=? 0) && (col <=? d_cols A)
                       then d_set A row col v else Some A);
              Do (t, _, x) <- tok fuel x;
              if t =? cRBR then Some (count, A, ungetc io x t)
              else if negb (t =? cCOMMA) then Some (-1, A, x)
              else read_coorddata n' fuel A count x
          end
      end.

    (* src/io/json_base.c:170-201 the elements of a dense array from the k-th on; the double
       loop visits (k mod rows, k / rows).  cnt = the number of elements still to read *)
    Fixpoint read_elems (cnt : nat) (fuel : nat) (A : dmat T) (k : Z) (x : S)
      : option (Z * dmat T * S) :=
      match cnt with
      | O => Some (k, A, x)
      | Datatypes.S cnt' =>
          let elem x :=
            Do (t, b, x) <- tok fuel x;
            if (t =? J_NUMBER) || (t =? J_INT) then
              Do v <- (if t =? J_INT then None else Some (strtod (cstr b)));
              Do A <- d_set A (k mod d_rows A) (k / d_rows A) v;
              read_elems cnt' fuel A (k + 1) x
            else if (k =? 0) && (t =? cLBR) then read_coorddata fuel fuel A 0 (ungetc io x t)
            else Some (-1, A, x) in
          if 0 <? k then
            Do (t, _, x) <- tok fuel x;
            if negb (t =? cCOMMA) then
              if t =? cRBR then Some (k, A, ungetc io x t) else Some (-1, A, x)
            else elem x
          else elem x
      end.

    (* src/io/json_base.c:165-203 armas_json_read_data; no loop pass if a dimension is 0.
       The reader never produces J_INT: that branch (line 192) is left undefined. *)
    Definition read_data (fuel : nat) (A : dmat T) (x : S) : option (Z * dmat T * S) :=
      read_elems (Z.to_nat (d_rows A * d_cols A)) fuel A 0 x.

    (* strncmp(iob, key, strlen(key)) == 0 *)
    Fixpoint prefix (k l : list Z) : bool :=
      match k, l with
      | [], _ => true
      | a :: k', b :: l' => (a =? b) && prefix k' l'
      | _ :: _, [] => false
      end.

    (* src/io/json_base.c:95-112 the states MEMBER_xxx *)
    Inductive mkey : Set := KROW | KCOL | KNNZ | KFLG | KDTA.
    Inductive mstate : Set := MKEY | MSEP | MCOLON (k : mkey) | MVAL (k : mkey).

    (* rows, cols, and the member bits for rows, cols, nnz, flags *)
    Record head : Set := mkhead { h_rows : Z; h_cols : Z; b_row : bool; b_col : bool;
                                  b_nnz : bool; b_flg : bool }.
    Inductive hres : Type :=
    | HDone (h : head) (x : S)    (* reached MEMBER_DTA_VAL *)
    | HNull (x : S)               (* an empty object *)
    | HErr (e : Z) (x : S).

    (* src/io/json_base.c:253-362 the loop over the members; first = (ntok == 0) *)
    Fixpoint read_head (n fuel : nat) (first : bool) (m : mstate) (h : head) (x : S)
      : option hres :=
      match n with
      | O => None
      | Datatypes.S n' =>
          Do (t, b, x) <- tok fuel x;
          let s := cstr b in
          let next m h := read_head n' fuel false m h x in
          match m with
          | MKEY =>
              if negb (t =? J_STRING) then
                if first && (t =? cRBC) then Some (HNull x) else Some (HErr (-1) x)
              else if prefix (codes "rows") s then
                if b_row h then Some (HErr (-4) x) else next (MCOLON KROW) h
              else if prefix (codes "cols") s then
                if b_col h then Some (HErr (-4) x) else next (MCOLON KCOL) h
              else if prefix (codes "data") s then next (MCOLON KDTA) h
              else if prefix (codes "nnz") s then
                if b_nnz h then Some (HErr (-4) x) else next (MCOLON KNNZ) h
              else if prefix (codes "flags") s then
                if b_flg h then Some (HErr (-4) x) else next (MCOLON KFLG) h
              else Some (HErr (-2) x)
          | MSEP => if negb (t =? cCOMMA) then Some (HErr (-1) x) else next MKEY h
          | MCOLON k =>
              if negb (t =? cCOLON) then Some (HErr (-1) x)
              else match k with
                   | KDTA => Some (HDone h x)
                   | _ => next (MVAL k) h
                   end
          | MVAL k =>
              if negb (t =? J_NUMBER) then Some (HErr (-1) x)
              else
                Do v <- atoi s;
                next MSEP
                  (match k with
                   | KROW => mkhead v (h_cols h) true (b_col h) (b_nnz h) (b_flg h)
                   | KCOL => mkhead (h_rows h) v (b_row h) true (b_nnz h) (b_flg h)
                   | KNNZ => mkhead (h_rows h) (h_cols h) (b_row h) (b_col h) true (b_flg h)
                   | KFLG => mkhead (h_rows h) (h_cols h) (b_row h) (b_col h) (b_nnz h) true
                   | KDTA => h
                   end)
          end
      end.

    (* src/io/json_base.c:230-404 armas_json_read: result code, the matrix handed to the caller
       (None = null) and the stream.  An existing matrix passed in is not modelled: the caller
       passes a null pointer. *)
    Definition json_read (fuel : nat) (x : S) : option (Z * option (dmat T) * S) :=
      Do (t, _, x) <- tok fuel x;
      if t =? J_NULL then Some (0, None, x)
      else if negb (t =? cLBC) then Some (-1, None, x)
      else
        Do r <- read_head fuel fuel true MKEY (mkhead 0 0 false false false false) x;
        match r with
        | HNull x => Some (0, None, x)
        | HErr e x => Some (e, None, x)
        | HDone h x =>
            if negb (b_row h && b_col h) then Some (-5, None, x)
            else
              Do (t, _, x) <- tok fuel x;
              if negb (t =? cLBR) then Some (-1, None, x)
              else
                Do A <- d_init (h_rows h) (h_cols h);
                Do (n, A, x) <- read_data fuel A x;
                if n <? 0 then Some (-1, None, x)
                else
                  Do (t, _, x) <- tok fuel x;
                  if negb (t =? cRBR) then Some (-1, None, x)
                  else
                    Do (t, _, x) <- tok fuel x;
                    if t =? cRBC then Some (0, Some A, x) else Some (-1, None, x)
        end.

    (* the sequencing of JSON_ONERROR: stop at the first error *)
    Definition seqw (c d : S -> Z * S) (x : S) : Z * S :=
      let r := c x in if fst r <? 0 then (-1, snd r) else d (snd r).

    (* src/io/json_writer.c:86-104 a number token: nothing is written if it is not finite *)
    Definition json_write_number (v : T) (x : S) : Z * S :=
      if isfinite v then puts io (fmtg v) x else (0, x).
    (* src/io/json_writer.c:77-85 *)
    Definition json_write_int (n : Z) (x : S) : Z * S := puts io (dec n) x.
    (* armas_json_write_token(ARMAS_JSON_STRING, key, strlen(key)) *)
    Definition write_key (k : list Z) (x : S) : Z * S :=
      json_write_string io k (Z.of_nat (length k)) x.

    (* src/io/json_base.c:78-87 the elements column by column; n counts them *)
    Fixpoint write_elems (cnt : nat) (A : dmat T) (n : Z) (x : S) : Z * S :=
      match cnt with
      | O => (0, x)
      | Datatypes.S cnt' =>
          seqw (fun x => if 0 <? n then json_write_punct io cCOMMA x else (0, x))
            (seqw (json_write_number (d_elt A (n mod d_rows A) (n / d_rows A)))
               (write_elems cnt' A (n + 1))) x
      end.

    (* src/io/json_base.c:45-93 armas_json_write, A not null *)
    Definition json_write (A : dmat T) (flags : Z) (x : S) : Z * S :=
      seqw (json_write_punct io cLBC)
     (seqw (write_key (codes "rows"))
     (seqw (json_write_punct io cCOLON)
     (seqw (json_write_int (d_rows A))
     (seqw (json_write_punct io cCOMMA)
     (seqw (write_key (codes "cols"))
     (seqw (json_write_punct io cCOLON)
     (seqw (json_write_int (d_cols A))
     (seqw (json_write_punct io cCOMMA)
     (seqw (fun x => if flags =? 0 then (0, x) else
               seqw (write_key (codes "flags"))
              (seqw (json_write_punct io cCOLON)
              (seqw (json_write_int flags) (json_write_punct io cCOMMA))) x)
     (seqw (write_key (codes "data"))
     (seqw (json_write_punct io cCOLON)
     (seqw (json_write_punct io cLBR)
     (seqw (write_elems (Z.to_nat (d_rows A * d_cols A)) A 0)
     (seqw (json_write_punct io cRBR)
           (json_write_punct io cRBC))))))))))))))) x.
  End Stream.
End Doc.
