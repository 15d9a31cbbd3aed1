(* SpecFloat.v: floating-point arithmetic with round to nearest, ties to even, as
   operations on real numbers: the exact result is rounded to the nearest number
   with prec bits and exponent at least emin (subnormals included).  There is no
   largest number, so what is stated for it holds of the machine's type for as
   long as no operation overflows.  Signed zeros and NaNs are not represented. *)
From Coq Require Import ZArith Reals.
From Flocq Require Import Core.
From Verif Require Import MNum Inst.
Local Open Scope R_scope.

Definition float (prec emin : Z) (x : R) : Prop := generic_format radix2 (FLT_exp emin prec) x.
Definition rnd (prec emin : Z) (x : R) : R := round radix2 (FLT_exp emin prec) ZnearestE x.

Definition Fnum (prec emin : Z) : num R := {|
  zero := 0; one := 1;
  add := fun x y => rnd prec emin (x + y);
  sub := fun x y => rnd prec emin (x - y);
  mul := fun x y => rnd prec emin (x * y);
  div := fun x y => rnd prec emin (x / y);
  opp := Ropp; abs := Rabs;
  sqrt := fun x => rnd prec emin (R_sqrt.sqrt x);
  eqb := Reqb; ltb := Rltb |}.

(* the fused operation: x*y + z rounded once *)
Definition Ffma (prec emin : Z) (x y z : R) : R := rnd prec emin (x * y + z).

(* the unit roundoff, and the distance of the subnormal numbers *)
Definition uro (prec : Z) : R := bpow radix2 (- prec).
Definition omega (emin : Z) : R := bpow radix2 emin.
(* (1+u)^k, k as an integer; (1+u)^k - 1 is about k*u *)
Definition up (prec : Z) (k : Z) : R := (1 + uro prec) ^ Z.to_nat k.

(* IEEE 754 single (float) and double *)
Definition F32 : num R := Fnum 24 (-149).
Definition F64 : num R := Fnum 53 (-1074).
Definition float32 : R -> Prop := float 24 (-149).
Definition float64 : R -> Prop := float 53 (-1074).
