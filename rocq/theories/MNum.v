(* MNum.v: the arithmetic of the element type DTYPE, as a record of operations
   without laws (src/include/dtype.h and the files it includes choose float,
   double or complex).  The laws a theorem needs are hypotheses of the theorem. *)
From Coq Require Import ZArith Bool.

Record num (T : Type) : Type := mknum {
  zero : T; one : T;
  add : T -> T -> T; sub : T -> T -> T; mul : T -> T -> T; div : T -> T -> T;
  opp : T -> T; abs : T -> T; sqrt : T -> T;
  eqb : T -> T -> bool;    (* the C operator == *)
  ltb : T -> T -> bool     (* the C operator <  *)
}.
Arguments zero {T} _. Arguments one {T} _. Arguments add {T} _ _ _.
Arguments sub {T} _ _ _. Arguments mul {T} _ _ _. Arguments div {T} _ _ _.
Arguments opp {T} _ _. Arguments abs {T} _ _. Arguments sqrt {T} _ _.
Arguments eqb {T} _ _ _. Arguments ltb {T} _ _ _.
