(* MCholUpd.v: model of the update of a Cholesky factorization, src/lapack/cholupd.c. *)
From Coq Require Import ZArith Bool.
From Verif Require Import Mem MView MFlags MNum MLap MGivens.
Local Open Scope Z_scope.
Local Open Scope prog_scope.

Section CholUpd.
  Context {T : Type} (K : num T).

  (* src/lapack/cholupd.c:42-85 unblk_cholupdate_lower; the state of the loop is XL *)
  Definition unblk_cholupdate_lower (fuel : nat) (A X : view) : M T Z :=
    r <- down_loop fuel A 1 more
      (fun _ t (XL : view) =>
         let '(X0, x1, X2) := mat_repartition_1x2to1x3 XL X 1 PBottom in
         a11val <- armas_get_unsafe (A11 t) 0 0 ;;
         x1val <- armas_get_unsafe x1 0 0 ;;
         let g := armas_gvcompute K a11val x1val in
         armas_set_unsafe (A11 t) 0 0 (snd g) ;;
         armas_gvrot_vec K (A21 t) X2 (fst (fst g)) (snd (fst g)) ;;
         ret (fst (mat_continue_1x3to1x2 X0 x1 X PBottom)))
      (mat_partition_2x2 A 0 0 PTop) (fst (mat_partition_1x2 X 0 PTop)) ;;
    ret (rows (ATL (fst r))).

  (* src/lapack/cholupd.c:88-131 unblk_cholupdate_upper *)
  Definition unblk_cholupdate_upper (fuel : nat) (A X : view) : M T Z :=
    r <- down_loop fuel A 1 more
      (fun _ t (XL : view) =>
         let '(X0, x1, X2) := mat_repartition_1x2to1x3 XL X 1 PBottom in
         a11val <- armas_get_unsafe (A11 t) 0 0 ;;
         x1val <- armas_get_unsafe x1 0 0 ;;
         let g := armas_gvcompute K a11val x1val in
         armas_set_unsafe (A11 t) 0 0 (snd g) ;;
         armas_gvrot_vec K (A12 t) X2 (fst (fst g)) (snd (fst g)) ;;
         ret (fst (mat_continue_1x3to1x2 X0 x1 X PBottom)))
      (mat_partition_2x2 A 0 0 PTop) (fst (mat_partition_1x2 X 0 PTop)) ;;
    ret (rows (ATL (fst r))).

  (* src/lapack/cholupd.c:153-178 armas_cholupdate *)
  Definition armas_cholupdate (fuel : nat) (A X : view) (flags : Z) : M T Z :=
    if (armas_size A =? 0) || (armas_size X =? 0) then ret 0
    else
      let Xrow := if cols X =? 1 then armas_col_as_row X else armas_make (rows X) (cols X) (step X) (elems X) in
      (if has flags ARMAS_UPPER then unblk_cholupdate_upper fuel A Xrow else unblk_cholupdate_lower fuel A Xrow) ;;
      ret 0.
End CholUpd.
