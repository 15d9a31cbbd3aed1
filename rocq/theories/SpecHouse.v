(* SpecHouse.v: elementary reflectors, used to state theorems. *)
From Coq Require Import ZArith Bool.
From Verif Require Import MNum SpecNum.
Local Open Scope Z_scope.

(* the inner product of two vectors of length n *)
Definition inner {T} (K : num T) (n : Z) (y z : Z -> T) : T := vsum K n (fun k => mul K (y k) (z k)).

(* (I - t*v*v^T) * z *)
Definition reflect {T} (K : num T) (n : Z) (t : T) (v z : Z -> T) : Z -> T :=
  fun i => sub K (z i) (mul K (mul K t (v i)) (inner K n v z)).

(* the map keeps inner products, hence lengths and angles *)
Definition isometry {T} (K : num T) (n : Z) (H : (Z -> T) -> Z -> T) : Prop :=
  forall y z, inner K n (H y) (H z) = inner K n y z.

(* the vector (a, x0, x1, ...) *)
Definition vcons {T} (a : T) (x : Z -> T) : Z -> T := fun i => if i =? 0 then a else x (i - 1).
