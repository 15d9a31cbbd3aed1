(* MLap.v: what the LAPACK style routines have in common: the configuration they
   pass to the operations they call, and their loop over the diagonal. *)
From Coq Require Import ZArith Bool.
From Verif Require Import Mem MView MFlags MBase MCopy MNum MBlas1 MElem MBlas2 MTrm MGemm MTrsm.
Local Open Scope Z_scope.
Local Open Scope prog_scope.

(* src/base/env.c:25-36 and src/include/armas.h armas_env_t, armas_conf_t: the values the
   routines read.  e_opt is conf->optflags, e_cb the work buffer that armas_cbuf_get finds
   (None: no memory), e_p the size of an element in bytes, e_lb the block size env->lb.
   e_fuel bounds the recursion depths and loop counts of the model. *)
Record lenv : Type := mklenv {
  e_fuel : nat; e_b1 : Z; e_b2 : Z; e_opt : Z; e_cb : option cbuf;
  e_mb : Z; e_nb : Z; e_kb : Z; e_p : Z; e_lb : Z }.

Section Lap.
  Context {T : Type} (K : num T) (E : lenv).

  (* the calls of the routines with the configuration filled in *)
  Definition l_dot (x y : view) : M T T := armas_dot K (e_fuel E) (e_b1 E) (e_opt E) x y.
  Definition l_mvmult (beta : T) (y : view) (alpha : T) (A x : view) (flags : Z) : M T Z :=
    armas_mvmult K (e_fuel E) (e_b2 E) (e_opt E) beta y alpha A x flags.
  Definition l_mvupdate (beta : T) (A : view) (alpha : T) (x y : view) : M T Z :=
    armas_mvupdate K (e_fuel E) (e_b2 E) (e_opt E) beta A alpha x y.
  Definition l_mvsolve_trm (x : view) (alpha : T) (A : view) (flags : Z) : M T Z :=
    armas_mvsolve_trm K (e_fuel E) (e_b1 E) (e_b2 E) (e_opt E) x alpha A flags.
  Definition l_mult (beta : T) (C : view) (alpha : T) (A B : view) (flags : Z) : M T Z :=
    armas_mult K (e_cb E) (e_mb E) (e_nb E) (e_kb E) (e_p E) beta C alpha A B flags.
  Definition l_solve_trm (B : view) (alpha : T) (A : view) (flags : Z) : M T Z :=
    armas_solve_trm K (e_fuel E) (e_b2 E) (e_opt E) (e_cb E) (e_mb E) (e_nb E) (e_kb E) (e_p E) B alpha A flags.

  (* src/lapack/lu.c:46-63, 75-96, 127-171, 214-257, chol.c:43-66 and others:
       while (go(ABR)) {
          mat_repartition_2x2to3x3(&ATL, ..., A, nb, ARMAS_PBOTTOMRIGHT);
          ... body ...
          mat_continue_3x3to2x2(&ATL, ..., A, ARMAS_PBOTTOMRIGHT);
       }
     The body sees the 2x2 and the 3x3 partition and works on the memory and on the local
     state s; the result is the last 2x2 partition and the last state. *)
  Fixpoint down_loop {S : Type} (fuel : nat) (A : view) (nb : Z) (go : view -> bool)
      (body : blk2 -> blk3 -> S -> M T S) (b : blk2) (s : S) : M T (blk2 * S) :=
    if go (ABR b) then
      match fuel with
      | O => fail
      | Datatypes.S f =>
          let t := mat_repartition_2x2to3x3 (ATL b) A nb PBottom in
          s' <- body b t s ;;
          down_loop f A nb go body (mat_continue_3x3to2x2 (A00 t) (A11 t) A PBottom) s'
      end
    else ret (b, s).

  (* the loop condition  ABR.rows > 0 && ABR.cols > 0 *)
  Definition more (V : view) : bool := (rows V >? 0) && (cols V >? 0).
  (* the loop condition  ABR.rows - lb > 0 && ABR.cols - lb > 0 *)
  Definition more_than (lb : Z) (V : view) : bool := (rows V - lb >? 0) && (cols V - lb >? 0).
End Lap.
