(* SpecView.v: what it means for a view to be well formed, to own a memory cell,
   and for a list of views to tile a view.  Only the address formula of the
   matrix type is used: element (i,j) lives at elems + j*step + i. *)
From Coq Require Import ZArith List.
From Verif Require Import Mem MView.
Import ListNotations.
Local Open Scope Z_scope.

(* leading dimension at least the number of rows, sizes not negative *)
Definition wf (A : view) : Prop :=
  0 <= rows A /\ 0 <= cols A /\ rows A <= step A.

(* (i,j) is a valid zero-based position of the view *)
Definition pos (A : view) (i j : Z) : Prop :=
  0 <= i < rows A /\ 0 <= j < cols A.

(* memory address a holds an element of the view *)
Definition cell (A : view) (a : Z) : Prop :=
  exists i j, pos A i j /\ a = elems A + j * step A + i.

(* all elements of the view are allocated *)
Definition allocated (L : Z -> bool) (A : view) : Prop :=
  forall a, cell A a -> L a = true.

Definition disjoint (A B : view) : Prop :=
  forall a, cell A a -> cell B a -> False.

Fixpoint pairwise_disjoint (l : list view) : Prop :=
  match l with
  | nil => True
  | (A :: l')%list => Forall (disjoint A) l' /\ pairwise_disjoint l'
  end.

(* the parts are disjoint and together hold exactly the elements of A *)
Definition tiles (parts : list view) (A : view) : Prop :=
  (forall a, cell A a <-> Exists (fun p => cell p a) parts) /\
  pairwise_disjoint parts.

(* value of element (i,j) of the view in memory m *)
Definition elt {T} (m : Z -> T) (A : view) (i j : Z) : T :=
  m (elems A + j * step A + i).

(* a vector is a view with one row or one column; its k-th element *)
Definition vec_pos (x : view) (k : Z) : Z * Z :=
  if rows x =? 1 then (0, k) else (k, 0).

Definition isvec (x : view) : Prop := rows x = 1 \/ cols x = 1.

Definition velt {T} (m : Z -> T) (x : view) (k : Z) : T :=
  elt m x (fst (vec_pos x k)) (snd (vec_pos x k)).

Definition vlen (x : view) : Z := rows x * cols x.

(* memory unchanged outside of the view *)
Definition only_changes {T} (A : view) (m m' : Z -> T) : Prop :=
  forall a, ~ cell A a -> m' a = m a.

(* square block of size n of A whose upper left corner is at (r, c) *)
Definition is_square_block (A B : view) (r c n : Z) : Prop :=
  elems B = elems A + c * step A + r /\ step B = step A /\ rows B = n /\ cols B = n.

(* index i of a dimension of size n; a negative index counts from the end *)
Definition norm_ix (n i : Z) : Z := if i <? 0 then i + n else i.

(* the blocks of a 2x2 and of a 3x3 partition *)
Definition list2 (b : blk2) : list view := [ATL b; ATR b; ABL b; ABR b].
Definition list3 (b : blk3) : list view :=
  [A00 b; A01 b; A02 b; A10 b; A11 b; A12 b; A20 b; A21 b; A22 b].

(* V shows the nr x nc block of B that starts at (r, c) *)
Definition shows (V B : view) (r c nr nc : Z) : Prop :=
  rows V = nr /\ cols V = nc /\
  (forall T (m : Z -> T) i j, pos V i j -> elt m V i j = elt m B (r + i) (c + j)) /\
  (forall a, cell V a -> cell B a) /\ wf V.

(* v is the subvector of x that starts at index n and has len elements *)
Definition vshows (v x : view) (n len : Z) : Prop :=
  isvec v /\ vlen v = len /\
  (forall T (m : Z -> T) k, 0 <= k < len -> velt m v k = velt m x (n + k)) /\
  (forall a, cell v a <-> exists k, n <= k < n + len /\
       a = elems x + snd (vec_pos x k) * step x + fst (vec_pos x k)) /\ wf v.
