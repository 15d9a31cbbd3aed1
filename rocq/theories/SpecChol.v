(* SpecChol.v: notions used to state the properties of the factorizations of symmetric matrices. *)
From Coq Require Import ZArith Bool.
From Verif Require Import MNum SpecNum.
Local Open Scope Z_scope.

(* x^T * S * x *)
Definition quad {T} (K : num T) (n : Z) (s : Z -> Z -> T) (x : Z -> T) : T :=
  vsum K n (fun i => vsum K n (fun j => mul K (mul K (x i) (x j)) (s i j))).

(* x^T * S * x > 0 for every x that is not zero *)
Definition pos_def {T} (K : num T) (n : Z) (s : Z -> Z -> T) : Prop :=
  forall x, (exists i, 0 <= i < n /\ x i <> zero K) -> ltb K (zero K) (quad K n s x) = true.
