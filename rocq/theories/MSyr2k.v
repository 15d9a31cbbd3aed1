(* MSyr2k.v: model of src/blas/syr2k.c, symmetric rank-2k update. *)
From Coq Require Import ZArith Bool.
From Verif Require Import Mem MView MFlags MBase MCopy MNum MBlas1 MElem MBlas2 MGemm MLap.
Local Open Scope Z_scope.
Local Open Scope prog_scope.

Section Syr2k.
  (* E: the environment; e_b1, e_b2 and e_lb are env->blas1min, blas2min and lb *)
  Context {T : Type} (K : num T) (E : lenv).
  Local Notation "a +' b" := (add K a b) (at level 50, left associativity).
  Local Notation "a *' b" := (mul K a b) (at level 40, left associativity).

  (* syr2k.c:49-54, 112-115 and 146-149, 206-209: X is split by rows, in the _trans versions by columns.  The
     functions with and without _trans differ in this and in the flags of the products; here t
     says which one it is. *)
  Definition sk_partition (t : bool) (X : view) (n : Z) : view * view :=
    if t then mat_partition_1x2 X n PTop else mat_partition_2x1 X n PTop.
  (* syr2k.c:62-65 and 157-160 *)
  Definition sk_repartition (t : bool) (XT X : view) (n : Z) : view * view * view :=
    if t then mat_repartition_1x2to1x3 XT X n PBottom else mat_repartition_2x1to3x1 XT X n PBottom.
  (* syr2k.c:82-85 and 177-180 *)
  Definition sk_continue (t : bool) (X0 x1 X : view) : view * view :=
    if t then mat_continue_1x3to1x2 X0 x1 X PBottom else mat_continue_3x1to2x1 X0 x1 X PBottom.

  (* syr2k.c:31-88 update_syr2k_unb and syr2k.c:128-182 update_syr2k_trans_unb; the state of
     the loop is XT and YT (XL and YL); 2.0*alpha is (1+1)*alpha *)
  Definition update_syr2k_unb (t : bool) (beta : T) (A : view) (alpha : T) (X Y : view) (flags : Z) : M T unit :=
    let fl := if t then ARMAS_TRANS else 0 in
    down_loop (e_fuel E) A 1 more
      (fun _ b s =>
         let '(X0, x1, X2) := sk_repartition t (fst s) X 1 in
         let '(Y0, y1, Y2) := sk_repartition t (snd s) Y 1 in
         ak <- armas_adot_unsafe K (e_fuel E) (e_b1 E) (zero K) ((one K +' one K) *' alpha) x1 y1 ;;
         a <- armas_get_unsafe (A11 b) 0 0 ;;
         armas_set_unsafe (A11 b) 0 0 (ak +' a *' beta) ;;
         (if has flags ARMAS_UPPER then
            armas_mvmult_unsafe K (e_fuel E) (e_b2 E) beta (A01 b) alpha Y0 x1 fl ;;
            armas_mvmult_unsafe K (e_fuel E) (e_b2 E) (one K) (A01 b) alpha X0 y1 fl
          else
            armas_mvmult_unsafe K (e_fuel E) (e_b2 E) beta (A10 b) alpha Y0 x1 fl ;;
            armas_mvmult_unsafe K (e_fuel E) (e_b2 E) (one K) (A10 b) alpha X0 y1 fl) ;;
         ret (fst (sk_continue t X0 x1 X), fst (sk_continue t Y0 y1 Y)))
      (mat_partition_2x2 A 0 0 PTop) (fst (sk_partition t X 0), fst (sk_partition t Y 0)) ;;
    ret tt.

  (* syr2k.c:90-126 update_syr2k_recursive and syr2k.c:184-220 update_syr2k_trans_recursive *)
  Fixpoint update_syr2k_recursive (depth : nat) (t : bool) (beta : T) (A : view) (alpha : T) (X Y : view)
      (flags minblock : Z) (ch : cache) : M T unit :=
    match depth with
    | O => fail
    | S d =>
      if rows A <? minblock then update_syr2k_unb t beta A alpha X Y flags
      else
        let h := rows A / 2 in
        let b := mat_partition_2x2 A h h PTop in
        let '(XT, XB) := sk_partition t X h in
        let '(YT, YB) := sk_partition t Y h in
        let fl := if t then ARMAS_TRANSA else ARMAS_TRANSB in
        update_syr2k_recursive d t beta (ATL b) alpha XT YT flags minblock ch ;;
        (if has flags ARMAS_UPPER then
           armas_mult_kernel K beta (ATR b) alpha XT YB fl ch ;;
           armas_mult_kernel_nc K (ATR b) alpha YT XB fl ch
         else
           armas_mult_kernel K beta (ABL b) alpha XB YT fl ch ;;
           armas_mult_kernel_nc K (ABL b) alpha YB XT fl ch) ;;
        update_syr2k_recursive d t beta (ABR b) alpha XB YB flags minblock ch
    end.

  (* the size check, syr2k.c:261-269 *)
  Definition syr2k_ok (C A B : view) (flags : Z) : bool :=
    (rows A =? rows B) && (cols A =? cols B) && (rows C =? cols C) &&
    (if has flags ARMAS_TRANS then rows C =? cols A else rows C =? rows A).

  (* syr2k.c:246-299 armas_update2_sym.  Note that a size error returns -1, not -ARMAS_ESIZE.
     e_cb E is the work buffer that armas_cbuf_select finds; conf->error is not modelled. *)
  Definition armas_update2_sym (beta : T) (C : view) (alpha : T) (A B : view) (flags : Z) : M T Z :=
    if (armas_size C =? 0) || (armas_size A =? 0) || (armas_size B =? 0) then ret 0
    else if negb (syr2k_ok C A B flags) then ret (-1)
    else
      let t := has flags ARMAS_TRANS in
      if has (e_opt E) ARMAS_ONAIVE then update_syr2k_unb t beta C alpha A B flags ;; ret 0
      else match e_cb E with
      | None => ret (- ARMAS_EMEMORY)
      | Some cb =>
        let ch := elem_cache (armas_cache_setup2 cb (e_mb E) (e_nb E) (e_kb E) (e_p E)) (e_p E) in
        update_syr2k_recursive (e_fuel E) t beta C alpha A B flags (e_lb E) ch ;;
        ret 0
      end.
End Syr2k.
