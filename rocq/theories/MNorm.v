(* MNorm.v: model of src/blas/mnorm.c. *)
From Coq Require Import ZArith Bool.
From Verif Require Import Mem MView MFlags MCopy MNum MBlas1.
Local Open Scope Z_scope.
Local Open Scope prog_scope.

(* src/include/armas.h:148-151 *)
Definition ARMAS_NORM_ONE := 1.
Definition ARMAS_NORM_TWO := 2.
Definition ARMAS_NORM_INF := 3.
Definition ARMAS_NORM_FRB := 4.

Section Norm.
  Context {T : Type}.
  Variable K : num T.
  Local Notation "x +' y" := (add K x y) (at level 50, left associativity).
  Local Notation "x *' y" := (mul K x y) (at level 40, left associativity).
  Local Notation "x /' y" := (div K x y) (at level 40, left associativity).

  (* src/blas/mnorm.c:30-50 sum_of_sq; the pair (sum, scl) is returned *)
  Definition sum_of_sq (X : view) (sum scl : T) : M T (T * T) :=
    for_acc 0 (armas_size X) 1
      (fun i r => let '(sum, scl) := r in
         a0 <- armas_get_at_unsafe X i ;;
         if negb (eqb K a0 (zero K)) then
           let a0 := abs K a0 in
           if ltb K scl a0 then
             ret (one K +' sum *' ((scl /' a0) *' (scl /' a0)), a0)
           else
             ret (sum +' (a0 /' scl) *' (a0 /' scl), scl)
         else ret (sum, scl))
      (sum, scl).

  (* src/blas/mnorm.c:55-69 matrix_norm_frb *)
  Definition matrix_norm_frb (x : view) : M T T :=
    r <- for_acc 0 (cols x) 1
      (fun k r => let '(ssum, scale) := r in
         let v := armas_column x k in
         sum_of_sq v ssum scale)
      (one K, zero K) ;;
    ret (snd r *' sqrt K (fst r)).

  (* src/blas/mnorm.c:74-89 matrix_norm_one; default summation strategy *)
  Definition matrix_norm_one (fuel : nat) (blas1min optflags : Z) (x : view) : M T T :=
    for_acc 0 (cols x) 1
      (fun k amax =>
         let v := armas_column x k in
         s <- armas_asum K fuel blas1min optflags v ;;
         let cmax := abs K s in
         ret (if ltb K amax cmax then cmax else amax))
      (zero K).

  (* src/blas/mnorm.c:94-109 matrix_norm_inf *)
  Definition matrix_norm_inf (fuel : nat) (blas1min optflags : Z) (x : view) : M T T :=
    for_acc 0 (rows x) 1
      (fun k amax =>
         let v := armas_row x k in
         s <- armas_asum K fuel blas1min optflags v ;;
         let cmax := abs K s in
         ret (if ltb K amax cmax then cmax else amax))
      (zero K).

  (* src/blas/mnorm.c:126-172 armas_mnorm; error codes in conf are not modelled *)
  Definition armas_mnorm (fuel : nat) (blas1min optflags : Z) (A : view) (which : Z) : M T T :=
    if armas_size A =? 0 then ret (zero K)
    else
      let is_vector := (rows A =? 1) || (cols A =? 1) in
      if which =? ARMAS_NORM_ONE then
        if is_vector then armas_asum K fuel blas1min optflags A
        else matrix_norm_one fuel blas1min optflags A
      else if which =? ARMAS_NORM_TWO then
        if is_vector then armas_nrm2 K A else ret (zero K)
      else if which =? ARMAS_NORM_INF then
        if is_vector then armas_amax K A
        else matrix_norm_inf fuel blas1min optflags A
      else if which =? ARMAS_NORM_FRB then
        if is_vector then armas_nrm2 K A else matrix_norm_frb A
      else ret (zero K).
End Norm.
