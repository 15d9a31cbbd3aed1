(* SpecJson.v: what the texts of JSON documents look like, independently of the reader. *)
From Coq Require Import String Ascii.
From Coq Require Import ZArith Bool List Lia.
From Verif Require Import MIo.
Import ListNotations.
Local Open Scope Z_scope.

(* ------------------------------------------------------------------ *)
(* streams *)

(* R x l: from state x the stream delivers exactly the characters l, then the end; a character
   just read can be pushed back *)
Record is_source {S} (io : stream S) (R : S -> list Z -> Prop) : Prop := mksource {
  src_end : forall x, R x [] -> fst (getc io x) < 0 /\ R (snd (getc io x)) [];
  src_get : forall x c l, R x (c :: l) ->
    fst (getc io x) = c /\ 0 <= c <= 255 /\ R (snd (getc io x)) l /\
    R (ungetc io (snd (getc io x)) c) (c :: l)
}.

(* W x out n: the characters out have been written so far and there is room for n more *)
Definition is_sink {S} (io : stream S) (W : S -> list Z -> nat -> Prop) : Prop :=
  forall x out n c, W x out (Datatypes.S n) -> 0 <= c <= 127 ->
    fst (putc io x c) >= 0 /\ W (snd (putc io x c)) (out ++ [c]) n.

(* ------------------------------------------------------------------ *)
(* tokens and their spelling *)

Inductive jtok : Type :=
| TPunct (c : Z)          (* one of the characters of is_punct *)
| TNum (text : list Z)
| TStr (chars : list Z)
| TTrue | TFalse | TNull.

(* one or more decimal digits *)
Definition digs (l : list Z) : Prop := l <> [] /\ Forall (fun c => 48 <= c <= 57) l.

(* a number: sign, digits, fraction, exponent *)
Inductive number : list Z -> Prop :=
| number_intro : forall sg i fr ex,
    (sg = [] \/ sg = [45]) -> digs i ->
    (fr = [] \/ exists f, fr = 46 :: f /\ digs f) ->
    (ex = [] \/ exists e s d, ex = e :: s ++ d /\ (e = 101 \/ e = 69) /\
                 (s = [] \/ s = [43] \/ s = [45]) /\ digs d) ->
    number (sg ++ i ++ fr ++ ex).

(* quoted s q: q, put between double quotes, spells the string s *)
Inductive quoted : list Z -> list Z -> Prop :=
| q_nil : quoted [] []
| q_plain : forall c s q, 1 <= c <= 255 -> c <> 34 -> c <> 92 ->
    quoted s q -> quoted (c :: s) (c :: q)
| q_esc : forall c e s q,
    In (c, e) [(34, 34); (92, 92); (47, 47); (8, 98); (10, 110); (13, 114); (9, 116)] ->
    quoted s q -> quoted (c :: s) (92 :: e :: q).

Definition punct : list Z := codes "{}[]:,".
Definition blank : list Z := [32; 10; 9; 13].
(* a number ends at one of these characters or at the end of the text *)
Definition delimited (t : list Z) : Prop :=
  match t with [] => True | c :: _ => In c (codes ",]}" ++ blank) end.

(* spells t ks rest: the text t consists of the tokens ks, with any white space before each of
   them, followed by the text rest *)
Inductive spells : list Z -> list jtok -> list Z -> Prop :=
| sp_done : forall t, spells t [] t
| sp_ws : forall w t k ks rest, In w blank -> spells t (k :: ks) rest ->
    spells (w :: t) (k :: ks) rest
| sp_punct : forall c t ks rest, In c punct -> spells t ks rest ->
    spells (c :: t) (TPunct c :: ks) rest
| sp_num : forall d t ks rest, number d -> delimited t -> spells t ks rest ->
    spells (d ++ t) (TNum d :: ks) rest
| sp_str : forall s q t ks rest, quoted s q -> spells t ks rest ->
    spells (34 :: q ++ 34 :: t) (TStr s :: ks) rest
| sp_true : forall t ks rest, spells t ks rest ->
    spells (codes "true" ++ t) (TTrue :: ks) rest
| sp_false : forall t ks rest, spells t ks rest ->
    spells (codes "false" ++ t) (TFalse :: ks) rest
| sp_null : forall t ks rest, spells t ks rest ->
    spells (codes "null" ++ t) (TNull :: ks) rest.

(* the code returned for a token, and its text *)
Definition tok_code (k : jtok) : Z :=
  match k with
  | TPunct c => c | TNum _ => J_NUMBER | TStr _ => J_STRING
  | TTrue => J_TRUE | TFalse => J_FALSE | TNull => J_NULL
  end.
Definition tok_text (k : jtok) : list Z :=
  match k with TNum l => l | TStr l => l | _ => [] end.
Definition short (k : jtok) : Prop := (length (tok_text k) <= 62)%nat.

(* ------------------------------------------------------------------ *)
(* documents *)

Definition P (s : string) : jtok := TPunct (hd 0 (codes s)).

(* members with a number as value, each followed by a comma *)
Definition members (ms : list (string * list Z)) : list jtok :=
  flat_map (fun m => [TStr (codes (fst m)); P ":"; TNum (snd m); P ","]) ms.

(* items separated by commas *)
Fixpoint commas (items : list (list jtok)) : list jtok :=
  match items with
  | [] => []
  | [a] => a
  | a :: r => a ++ P "," :: commas r
  end.

Definition document (ms : list (string * list Z)) (data : list (list jtok)) : list jtok :=
  P "{" :: members ms ++ [TStr (codes "data"); P ":"; P "["] ++ commas data ++ [P "]"; P "}"].

(* an array of the elements, column by column *)
Definition dense (vs : list (list Z)) : list (list jtok) := map (fun v => [TNum v]) vs.

(* an array of coordinates [row, column, value] *)
Definition coords (cs : list (list Z * list Z * list Z)) : list (list jtok) :=
  map (fun c => [P "["; TNum (fst (fst c)); P ","; TNum (snd (fst c)); P ","; TNum (snd c); P "]"]) cs.

(* the header says rows = r and cols = c, each once; nnz and flags are optional *)
Definition header (ms : list (string * list Z)) (r c : Z) : Prop :=
  NoDup (map fst ms) /\
  (forall k v, In (k, v) ms -> (k = "rows" \/ k = "cols" \/ k = "nnz" \/ k = "flags")%string /\
                 exists n, atoi v = Some n) /\
  (exists v, In ("rows"%string, v) ms /\ atoi v = Some r) /\
  (exists v, In ("cols"%string, v) ms /\ atoi v = Some c).

(* the value that a list of (row, column, value) gives to (i,j): the last one listed *)
Definition listed {T} (cs : list (Z * Z * T)) (i j : Z) (v0 : T) : T :=
  fold_left (fun v c => if (fst (fst c) =? i) && (snd (fst c) =? j) then snd c else v) cs v0.
