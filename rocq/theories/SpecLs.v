(* SpecLs.v: matrix times vector, lengths and linear independence, used to state theorems. *)
From Coq Require Import ZArith Bool.
From Verif Require Import MNum SpecNum SpecHouse.
Local Open Scope Z_scope.

(* element i of a*x, a with n columns *)
Definition mv {T} (K : num T) (n : Z) (a : Z -> Z -> T) (x : Z -> T) (i : Z) : T := vsum K n (fun k => mul K (a i k) (x k)).

(* element j of a^T*z, a with n rows *)
Definition mvt {T} (K : num T) (n : Z) (a : Z -> Z -> T) (z : Z -> T) (j : Z) : T := vsum K n (fun k => mul K (a k j) (z k)).

(* the square of the length of a vector *)
Definition nsq {T} (K : num T) (n : Z) (z : Z -> T) : T := inner K n z z.

(* the columns of the m by n matrix a are linearly independent *)
Definition independent {T} (K : num T) (m n : Z) (a : Z -> Z -> T) : Prop :=
  forall x, (forall i, 0 <= i < m -> mv K n a x i = zero K) -> forall k, 0 <= k < n -> x k = zero K.
