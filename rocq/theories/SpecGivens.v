(* SpecGivens.v: rotations of two rows or two columns of a matrix, given as a function of the indexes. *)
From Coq Require Import ZArith Bool.
From Verif Require Import MNum SpecNum.
Local Open Scope Z_scope.

Section G.
  Context {T : Type} (K : num T).

  (* G(c,s)*M for the rows p and q *)
  Definition rotrows (c s : T) (p q : Z) (X : Z -> Z -> T) : Z -> Z -> T := fun i j =>
    if i =? p then add K (mul K c (X p j)) (mul K s (X q j))
    else if i =? q then sub K (mul K c (X q j)) (mul K s (X p j))
    else X i j.
  (* M*G(c,s)^T for the columns p and q *)
  Definition rotcols (c s : T) (p q : Z) (X : Z -> Z -> T) : Z -> Z -> T := fun i j =>
    if j =? p then add K (mul K c (X i p)) (mul K s (X i q))
    else if j =? q then sub K (mul K c (X i q)) (mul K s (X i p))
    else X i j.
  Definition rot (left : bool) := if left then rotrows else rotcols.

  (* rotations 0, 1, ..., n-1 in this order: rotation k acts on the rows (columns) start+k, start+k+1 *)
  Fixpoint rot_fwd (left : bool) (start : Z) (c s : Z -> T) (n : nat) (X : Z -> Z -> T) : Z -> Z -> T :=
    match n with
    | O => X
    | S k => rot left (c (Z.of_nat k)) (s (Z.of_nat k)) (start + Z.of_nat k) (start + Z.of_nat k + 1)
               (rot_fwd left start c s k X)
    end.
  (* rotations n-1, ..., 1, 0 in this order *)
  Fixpoint rot_bwd (left : bool) (start : Z) (c s : Z -> T) (n : nat) (X : Z -> Z -> T) : Z -> Z -> T :=
    match n with
    | O => X
    | S k => rot_bwd left start c s k
               (rot left (c (Z.of_nat k)) (s (Z.of_nat k)) (start + Z.of_nat k) (start + Z.of_nat k + 1) X)
    end.
End G.
