(* SpecTrm.v: the triangular matrix stored in a view. *)
From Coq Require Import ZArith Bool.
From Verif Require Import Mem MView SpecView MNum.
Local Open Scope Z_scope.

(* element (i,j) of the triangular matrix stored in A: only the elements on one
   side of the diagonal count, the diagonal counts as ones if unit is set *)
Definition tri {T} (K : num T) (upper unit : bool) (m : Z -> T) (A : view) (i j : Z) : T :=
  if i =? j then (if unit then one K else elt m A i j)
  else if (if upper then i <? j else j <? i) then elt m A i j
  else zero K.

(* element (i,j) of that matrix or of its transpose *)
Definition optri {T} (K : num T) (upper unit trans : bool) (m : Z -> T) (A : view) (i j : Z) : T :=
  if trans then tri K upper unit m A j i else tri K upper unit m A i j.

(* (i,j) belongs to the upper or to the lower triangle, diagonal included *)
Definition intri (upper : bool) (i j : Z) : Prop := if upper then i <= j else j <= i.

(* address a holds an element of that triangle *)
Definition tcell (upper : bool) (A : view) (a : Z) : Prop :=
  exists i j, pos A i j /\ intri upper i j /\ a = elems A + j * step A + i.

(* the elements of the triangle are allocated; nothing is said about the others *)
Definition tri_allocated (L : Z -> bool) (upper : bool) (A : view) : Prop :=
  forall a, tcell upper A a -> L a = true.

(* nothing but the triangle changes *)
Definition only_changes_tri {T} (upper : bool) (A : view) (m m' : Z -> T) : Prop :=
  forall a, ~ tcell upper A a -> m' a = m a.

(* element (i,j) of the symmetric matrix of which A holds one triangle *)
Definition sym {T} (upper : bool) (m : Z -> T) (A : view) (i j : Z) : T :=
  if (if upper then i <=? j else j <=? i) then elt m A i j else elt m A j i.
