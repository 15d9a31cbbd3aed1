(* SpecQr.v: products of elementary reflectors stored in a matrix, used to state theorems. *)
From Coq Require Import ZArith Bool.
From Verif Require Import MNum SpecNum SpecHouse.
Local Open Scope Z_scope.

(* the vector of reflector q: zeros, then 1, then what is stored below the diagonal of column q *)
Definition hvec {T} (K : num T) (a : Z -> Z -> T) (q : Z) : Z -> T :=
  fun i => if i <? q then zero K else if i =? q then one K else a i q.

(* H_q * z with H_q = I - t_q * v_q * v_q^T, for vectors of length n *)
Definition hmap {T} (K : num T) (n : Z) (a : Z -> Z -> T) (t : Z -> T) (q : Z) (z : Z -> T) : Z -> T :=
  reflect K n (t q) (hvec K a q) z.

(* H_0 * H_1 * ... * H_{k-1} * z *)
Fixpoint qapply {T} (K : num T) (n : Z) (a : Z -> Z -> T) (t : Z -> T) (k : nat) (z : Z -> T) : Z -> T :=
  match k with
  | O => z
  | S k => qapply K n a t k (hmap K n a t (Z.of_nat k) z)
  end.

(* H_{k-1} * ... * H_1 * H_0 * z *)
Fixpoint qtapply {T} (K : num T) (n : Z) (a : Z -> Z -> T) (t : Z -> T) (k : nat) (z : Z -> T) : Z -> T :=
  match k with
  | O => z
  | S k => hmap K n a t (Z.of_nat k) (qtapply K n a t k z)
  end.

(* the part of a on and above the diagonal *)
Definition upper {T} (K : num T) (a : Z -> Z -> T) (i j : Z) : T := if j <? i then zero K else a i j.

(* element (i,j) of the n by n matrix Q = H_0 * H_1 * ... * H_{k-1} *)
Definition qmat {T} (K : num T) (n : Z) (a : Z -> Z -> T) (t : Z -> T) (k : nat) (i j : Z) : T :=
  qapply K n a t k (fun r => if r =? j then one K else zero K) i.
