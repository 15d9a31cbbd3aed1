(* SpecPivot.v: permutations described by a list of interchanges; used to state C27 and C28.
   Nothing here depends on the model of the code. *)
From Coq Require Import ZArith Bool.
Local Open Scope Z_scope.

(* the transposition of a and b *)
Definition transp (a b i : Z) : Z := if i =? a then b else if i =? b then a else i.

(* the interchange of row (column) k with the one-based index n; an index outside 1..size means none *)
Definition ichg (size n k : Z) : Z -> Z :=
  if (0 <? n) && (n <=? size) then transp (n - 1) k else fun i => i.

(* fwd size p n i: the row of the original matrix that is row i after interchanging row 0 with
   p 0, then row 1 with p 1, ..., then row n-1 with p (n-1) *)
Fixpoint fwd (size : Z) (p : Z -> Z) (n : nat) (i : Z) : Z :=
  match n with
  | O => i
  | S n' => fwd size p n' (ichg size (p (Z.of_nat n')) (Z.of_nat n') i)
  end.

(* bwd size np p n i: the row of the original matrix that is row i after interchanging row size-1
   with p (np-1), then row size-2 with p (np-2), ..., n interchanges in all *)
Fixpoint bwd (size np : Z) (p : Z -> Z) (n : nat) (i : Z) : Z :=
  match n with
  | O => i
  | S n' => let k := np - 1 - Z.of_nat n' in
            bwd size np p n' (ichg size (p k) (k + (size - np)) i)
  end.

(* f is a permutation of 0..n-1 *)
Definition bijective_on (n : Z) (f : Z -> Z) : Prop :=
  (forall i, 0 <= i < n -> 0 <= f i < n) /\
  (forall i, 0 <= i < n -> exists k, 0 <= k < n /\ f k = i).
