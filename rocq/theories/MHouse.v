(* MHouse.v: model of the Householder reflectors of src/lapack/house.c. *)
From Coq Require Import ZArith Bool.
From Verif Require Import Mem MView MFlags MBase MCopy MNum MBlas1 MElem MBlas2 MTrm MGemm MTrsm MLap.
Local Open Scope Z_scope.
Local Open Scope prog_scope.

(* src/include/armas.h:80, :81 and :123 *)
Definition ARMAS_HHNEGATIVE : Z := 8388608.
Definition ARMAS_NONNEG : Z := 16777216.
Definition ARMAS_ONONNEG : Z := 16384.

Section House.
  Context {T : Type} (K : num T) (E : lenv).
  (* safmin is the constant SAFEMIN / EPS of the element type.  steps bounds the number of turns
     of the loop that scales small vectors up, as a function of beta. *)
  Context (safmin : T) (steps : T -> nat).
  Local Notation zero := (zero K).
  Local Notation one := (one K).
  Local Notation "a +' b" := (add K a b) (at level 50, left associativity).
  Local Notation "a -' b" := (sub K a b) (at level 50, left associativity).
  Local Notation "a *' b" := (mul K a b) (at level 40, left associativity).
  Local Notation "a /' b" := (div K a b) (at level 40, left associativity).

  (* the C function hypot; exact arithmetic needs no protection from overflow *)
  Definition hypot (a b : T) : T := sqrt K (a *' a +' b *' b).

  (* src/lapack/house.c:112 and :193: sign = SIGN(alpha) ? -1.0 : 1.0; there is no -0 *)
  Definition sign_of (a : T) : T := if ltb K a zero then opp K one else one.

  (* src/lapack/house.c:120-125: the do-while loop; s is (nscale, beta, alpha) *)
  Fixpoint hh_scale (fuel : nat) (x : view) (rsafmin : T) (s : nat * T * T) : M T (nat * T * T) :=
    match fuel with
    | O => fail
    | S f =>
        let '(nscale, beta, alpha) := s in
        armas_scale K x rsafmin ;;
        let beta := beta *' rsafmin in
        let alpha := alpha *' rsafmin in
        if ltb K beta safmin then hh_scale f x rsafmin (S nscale, beta, alpha)
        else ret (S nscale, beta, alpha)
    end.

  (* src/lapack/house.c:167-169: while (nscale-- > 0) beta *= safmin; *)
  Fixpoint hh_unscale (nscale : nat) (beta : T) : T :=
    match nscale with O => beta | S n => hh_unscale n (beta *' safmin) end.

  (* src/lapack/house.c:132-163: the switch on the flag bits; the result is (beta, delta, t) *)
  Definition hh_select (flags : Z) (alpha beta normx sign : T) : T * T * T :=
    if has flags ARMAS_HHNEGATIVE then
      if has flags ARMAS_NONNEG then
        let delta := if negb (ltb K alpha zero) then alpha +' beta
                     else opp K normx *' (normx /' (alpha -' beta)) in
        (beta, delta, delta /' beta)
      else
        let beta := sign *' beta in
        let delta := alpha +' beta in
        (beta, delta, delta /' beta)
    else
      if has flags ARMAS_NONNEG then
        let delta := if negb (ltb K zero alpha) then alpha -' beta
                     else opp K normx *' (normx /' (alpha +' beta)) in
        (beta, delta, opp K delta /' beta)
      else
        let beta := opp K sign *' beta in
        let delta := alpha -' beta in
        (beta, delta, opp K delta /' beta).

  (* src/lapack/house.c:95-173 internal_householder *)
  Definition internal_householder (a11 x tau : view) (flags : Z) : M T Z :=
    normx <- armas_nrm2 K x ;;
    if eqb K normx zero then
      armas_set tau 0 0 zero ;;
      ret 0
    else
      alpha <- armas_get_unsafe a11 0 0 ;;
      let sign := sign_of alpha in
      let beta := hypot alpha normx in
      r <- (if ltb K beta safmin then
              s <- hh_scale (steps beta) x (one /' safmin) (O, beta, alpha) ;;
              let '(nscale, _, alpha) := s in
              normx <- armas_nrm2 K x ;;
              ret (nscale, alpha, normx, hypot alpha normx)
            else ret (O, alpha, normx, beta)) ;;
      let '(nscale, alpha, normx, beta) := r in
      let '(beta, delta, t) := hh_select flags alpha beta normx sign in
      armas_scale K x (one /' delta) ;;
      armas_set_unsafe tau 0 0 t ;;
      armas_set_unsafe a11 0 0 (hh_unscale nscale beta) ;;
      ret 0.

  (* src/lapack/house.c:180-224 hhcompute_unscaled *)
  Definition hhcompute_unscaled (x0 x1 tau : view) (flags : Z) : M T Z :=
    normx <- armas_nrm2 K x1 ;;
    if eqb K normx zero then
      v <- armas_get_unsafe x0 0 0 ;;
      armas_set_unsafe tau 0 0 v ;;
      ret 0
    else
      x0val <- armas_get_unsafe x0 0 0 ;;
      let sign := sign_of x0val in
      let beta := hypot x0val normx in
      let '(beta, alpha, delta) :=
        if has flags ARMAS_NONNEG then
          let alpha := if negb (ltb K zero x0val) then x0val -' beta
                       else opp K normx *' (normx /' (x0val +' beta)) in
          (beta, alpha, hypot normx alpha)
        else
          let beta := opp K sign *' beta in
          (beta, x0val -' beta, hypot normx (x0val -' beta)) in
      armas_set_unsafe x0 0 0 (alpha /' delta) ;;
      armas_scale K x1 (one /' delta) ;;
      armas_set_unsafe tau 0 0 beta ;;
      ret 0.

  (* src/lapack/house.c:266-276 armas_house *)
  Definition armas_house (a11 x tau : view) (flags : Z) : M T Z :=
    if has flags ARMAS_UNIT then internal_householder a11 x tau flags
    else hhcompute_unscaled a11 x tau flags.

  (* src/lapack/house.c:278-292 armas_house_vec *)
  Definition armas_house_vec (x tau : view) (flags : Z) : M T Z :=
    let alpha := armas_submatrix x 0 0 1 1 in
    let x2 := if rows x =? 1 then armas_submatrix x 0 1 1 (armas_size x - 1)
              else armas_submatrix x 1 0 (armas_size x - 1) 1 in
    armas_house alpha x2 tau flags.

  (* src/lapack/house.c:295-300 armas_compute_householder *)
  Definition armas_compute_householder (a11 x tau : view) : M T Z :=
    internal_householder a11 x tau (if has (e_opt E) ARMAS_NONNEG then ARMAS_NONNEG else 0).

  (* tval of src/lapack/house.c:366 and :410; a null pointer is None *)
  Definition tau_value (tau : option view) : M T T :=
    match tau with
    | Some t => armas_get zero t 0 0
    | None => ret (one +' one)
    end.

  (* src/lapack/house.c:361-391 armas_apply_householder2x1; ARMAS_NONE is 0 *)
  Definition armas_apply_householder2x1 (tau : option view) (v a1 A2 w1 : view) (flags : Z) : M T Z :=
    tval <- tau_value tau ;;
    if eqb K tval zero then ret 0
    else
      armas_axpby K zero w1 one a1 ;;
      (if has flags ARMAS_LEFT then l_mvmult K E one w1 one A2 v ARMAS_TRANSA
       else l_mvmult K E one w1 one A2 v 0) ;;
      armas_scale K w1 tval ;;
      armas_axpy K a1 (opp K one) w1 ;;
      (if has flags ARMAS_LEFT then l_mvupdate K E one A2 (opp K one) v w1
       else l_mvupdate K E one A2 (opp K one) w1 v) ;;
      ret 0.

  (* src/lapack/house.c:402-425 armas_apply_householder1x1 *)
  Definition armas_apply_householder1x1 (tau : option view) (v A w : view) (flags : Z) : M T Z :=
    tval <- tau_value tau ;;
    if eqb K tval zero then ret 0
    else
      if has flags ARMAS_LEFT then
        l_mvmult K E zero w one A v ARMAS_TRANS ;;
        l_mvupdate K E one A (opp K tval) v w ;;
        ret 0
      else
        l_mvmult K E zero w one A v 0 ;;
        l_mvupdate K E one A (opp K tval) w v ;;
        ret 0.

  (* src/lapack/house.c:455-468 armas_houseapply2x1 *)
  Definition armas_houseapply2x1 (a1 A2 : view) (tau : option view) (v w : view) (flags : Z) : M T Z :=
    if armas_size w <? armas_size a1 then ret (-1)
    else
      let w1 := armas_make (armas_size a1) 1 (armas_size a1) (elems w) in
      armas_apply_householder2x1 tau v a1 A2 w1 flags.

  (* src/lapack/house.c:497-570 armas_houseapply; a null pointer is None, dereferencing it
     is undefined *)
  Definition armas_houseapply (A : view) (tau : option view) (v : view) (w : option view) (flags : Z) : M T Z :=
    let scaled := if (match tau with None => true | Some _ => false end) || has flags ARMAS_UNIT then 1 else 0 in
    if armas_isvector A then
      if negb (scaled =? 0) then
        if negb (armas_size A - 1 =? armas_size v) then ret (-1)
        else
          let A2 := armas_subvector A 1 (armas_size A - 1) in
          alpha <- l_dot K E A2 v ;;
          a0 <- armas_get_unsafe A 0 0 ;;
          t <- (match tau with None => fail | Some t => armas_get_unsafe t 0 0 end) ;;
          let alpha := (alpha +' a0) *' t in
          a0 <- armas_get_unsafe A 0 0 ;;
          armas_set_unsafe A 0 0 (a0 -' alpha) ;;
          armas_axpy K A2 (opp K alpha) v ;;
          ret 0
      else
        if negb (armas_size A =? armas_size v) then ret (-1)
        else
          d <- l_dot K E A v ;;
          armas_axpy K A (opp K ((one +' one) *' d)) v ;;
          ret 0
    else
      let ok := if has flags ARMAS_RIGHT then rows A - scaled =? armas_size v
                else cols A - scaled =? armas_size v in
      if negb ok then ret (-1)
      else
        match w with
        | None => ret (-1)
        | Some w =>
            if armas_size w <? armas_size v + scaled then ret (-1)
            else if negb (scaled =? 0) then
              let '(a1, A2) :=
                if has flags ARMAS_RIGHT && negb (has flags ARMAS_LEFT) then
                  (armas_submatrix A 0 0 (rows A) 1, armas_submatrix A 0 1 (rows A) (cols A - 1))
                else
                  (armas_submatrix A 0 0 1 (cols A), armas_submatrix A 1 0 (rows A - 1) (cols A)) in
              let w1 := armas_make (armas_size a1) 1 (armas_size a1) (elems w) in
              armas_apply_householder2x1 tau v a1 A2 w1 flags
            else
              let n := if has flags ARMAS_RIGHT then rows A else cols A in
              let w1 := armas_make n 1 n (elems w) in
              armas_apply_householder1x1 tau v A w1 flags
        end.
End House.
