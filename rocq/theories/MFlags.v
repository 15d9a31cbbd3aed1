(* MFlags.v: flag bits and error codes of src/include/armas.h. *)
From Coq Require Import ZArith Bool.
Local Open Scope Z_scope.

(* src/include/armas.h:48-82 enum armas_flags *)
Definition ARMAS_LOWER : Z := 1.
Definition ARMAS_UPPER : Z := 2.
Definition ARMAS_SYMM : Z := 4.
Definition ARMAS_HERM : Z := 8.
Definition ARMAS_UNIT : Z := 16.
Definition ARMAS_LEFT : Z := 32.
Definition ARMAS_RIGHT : Z := 64.
Definition ARMAS_TRANSA : Z := 128.
Definition ARMAS_TRANSB : Z := 256.
Definition ARMAS_TRANS : Z := ARMAS_TRANSA.
Definition ARMAS_CTRANSA : Z := 512.
Definition ARMAS_CTRANSB : Z := 1024.
Definition ARMAS_FORWARD : Z := 131072.
Definition ARMAS_BACKWARD : Z := 262144.
Definition ARMAS_ABSA : Z := 524288.
Definition ARMAS_ABSB : Z := 1048576.

(* src/include/armas.h:108-123 option bits *)
Definition ARMAS_ONAIVE : Z := 1.
Definition ARMAS_OKAHAN : Z := 2.
Definition ARMAS_OPAIRWISE : Z := 4.
Definition ARMAS_ORECURSIVE : Z := 8.

(* src/include/armas.h:130-145 error codes.  A function that fails stores the
   code in conf->error and returns its negative; only the result is modelled. *)
Definition ARMAS_ESIZE : Z := 1.
Definition ARMAS_ENEED_VECTOR : Z := 2.
Definition ARMAS_EINVAL : Z := 3.
Definition ARMAS_EIMP : Z := 4.
Definition ARMAS_EWORK : Z := 5.
Definition ARMAS_ESINGULAR : Z := 6.
Definition ARMAS_ENEGATIVE : Z := 7.
Definition ARMAS_EMEMORY : Z := 8.

(* the C condition  (flags & bits) != 0 *)
Definition has (flags bits : Z) : bool := negb (Z.land flags bits =? 0).
