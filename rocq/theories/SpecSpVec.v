(* SpecSpVec.v: what the operations on compressed matrices are said to compute,
   in terms of the denoted matrix [value]. *)
From Coq Require Import ZArith List Bool Lia.
From Verif Require Import MView MNum SpecNum SpecView MSparse SpecSparse.
Local Open Scope Z_scope.

(* vectors whose elements lie one after the other: columns, and rows of a matrix
   with one row per column *)
Definition contiguous (x : view) : Prop := cols x = 1 \/ (rows x = 1 /\ step x = 1).

Section Spec.
  Context {T : Type}.

  (* the element (i, j) is stored *)
  Definition stored (A : sparse T) (i j : Z) : Prop := In (i, j) (map fst (entries A)).

  (* every line holds its diagonal element *)
  Definition full_diagonal (A : sparse T) : Prop := forall j, 0 <= j < nlines A -> stored A j j.

  (* the triangle of A that is used, with ones on the diagonal for unit *)
  Definition sptri (K : num T) (A : sparse T) (upper un : bool) (i j : Z) : T :=
    if i =? j then (if un then one K else value K A i j)
    else if (if upper then i <? j else j <? i) then value K A i j else zero K.
  Definition opsptri (K : num T) (A : sparse T) (upper un tr : bool) (i j : Z) : T :=
    if tr then sptri K A upper un j i else sptri K A upper un i j.

  (* the symmetric matrix given by one triangle of A *)
  Definition spsym (K : num T) (A : sparse T) (upper : bool) (i j : Z) : T :=
    if (if upper then i <=? j else j <=? i) then value K A i j else value K A j i.
End Spec.
