(* SpecNum.v: laws of arithmetic and finite sums, used to state theorems. *)
From Coq Require Import ZArith Ring Field Bool.
From Verif Require Import MNum.
Local Open Scope Z_scope.

(* the operations form a commutative ring / a field (with Leibniz equality) *)
Definition is_ring {T} (N : num T) : Prop :=
  ring_theory (zero N) (one N) (add N) (mul N) (sub N) (opp N) eq.

Definition is_field {T} (N : num T) : Prop :=
  field_theory (zero N) (one N) (add N) (mul N) (sub N) (opp N) (div N)
    (fun x => div N (one N) x) eq.

(* the comparison == decides equality *)
Definition eqb_ok {T} (N : num T) : Prop := forall a b, eqb N a b = true <-> a = b.

(* the comparison < is a strict total order *)
Definition ltb_ok {T} (N : num T) : Prop :=
  (forall a, ltb N a a = false) /\
  (forall a b c, ltb N a b = true -> ltb N b c = true -> ltb N a c = true) /\
  (forall a b, ltb N a b = true \/ a = b \/ ltb N b a = true).

(* f 0 + f 1 + ... + f (n-1) *)
Fixpoint bigsum {T} (N : num T) (n : nat) (f : Z -> T) : T :=
  match n with
  | O => zero N
  | S k => add N (bigsum N k f) (f (Z.of_nat k))
  end.

Definition vsum {T} (N : num T) (n : Z) (f : Z -> T) : T := bigsum N (Z.to_nat n) f.

(* an ordered field whose absolute value is the usual one *)
Definition is_ordered {T} (N : num T) : Prop :=
  ltb_ok N /\
  (forall a b c, ltb N a b = true -> ltb N (add N a c) (add N b c) = true) /\
  (forall a b, ltb N (zero N) a = true -> ltb N (zero N) b = true ->
     ltb N (zero N) (mul N a b) = true) /\
  (forall a, abs N a = if ltb N a (zero N) then opp N a else a).

(* every non-negative number has a non-negative square root, computed by sqrt *)
Definition sqrt_ok {T} (N : num T) : Prop :=
  forall a, ltb N a (zero N) = false ->
    ltb N (sqrt N a) (zero N) = false /\ mul N (sqrt N a) (sqrt N a) = a.

(* the sum over all elements of an r x c matrix, column by column *)
Definition msum {T} (N : num T) (r c : Z) (f : Z -> Z -> T) : T :=
  vsum N c (fun j => vsum N r (fun i => f i j)).
