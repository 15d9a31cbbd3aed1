(* SpecBlas1.v: what the reference BLAS says about vectors, in terms of addresses. *)
From Coq Require Import ZArith Bool.
From Verif Require Import MNum SpecNum.
Local Open Scope Z_scope.

(* the address of element k of a vector of n elements at address a with increment inc; with a negative
   increment the elements are taken backwards, element 0 is the last one in memory *)
Definition badr (a inc n k : Z) : Z := if inc <? 0 then a + (k - (n - 1)) * inc else a + k * inc.
Definition bel {T} (m : Z -> T) (a inc n k : Z) : T := m (badr a inc n k).
(* address p holds an element of the vector *)
Definition bcell (a inc n p : Z) : Prop := exists k, 0 <= k < n /\ p = badr a inc n k.
(* all elements are allocated *)
Definition ballocated (L : Z -> bool) (a inc n : Z) : Prop := forall p, bcell a inc n p -> L p = true.
(* no element is shared *)
Definition bdisjoint (X incx Y incy n : Z) : Prop := forall p, bcell X incx n p -> bcell Y incy n p -> False.
