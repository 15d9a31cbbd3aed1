(* MTraverse.v: model of the block traversal loop used by the blocked and
   unblocked LAPACK style algorithms. *)
From Coq Require Import ZArith List Bool.
From Verif Require Import MView.
Import ListNotations.
Local Open Scope Z_scope.

(* src/lapack/lu.c:46-63 (block size 1), lapack/lu.c:214-257 (block size lb):
     while (ABR.rows > 0 && ABR.cols > 0) {
        mat_repartition_2x2to3x3(&ATL, ..., A, nb, ARMAS_PBOTTOMRIGHT);
        ... body on the 3x3 blocks ...
        mat_continue_3x3to2x2(&ATL, ..., A, ARMAS_PBOTTOMRIGHT);
     }
   The result is the list of 3x3 partitions the body sees and the final 2x2
   partition; None when the loop does not end within the fuel. *)
Fixpoint trav_down (fuel : nat) (A : view) (nb : Z) (b : blk2)
  : option (list blk3 * blk2) :=
  if (rows (ABR b) >? 0) && (cols (ABR b) >? 0) then
    match fuel with
    | O => None
    | S f =>
        let t := mat_repartition_2x2to3x3 (ATL b) A nb PBottom in
        match trav_down f A nb (mat_continue_3x3to2x2 (A00 t) (A11 t) A PBottom) with
        | None => None
        | Some (l, e) => Some (t :: l, e)
        end
    end
  else Some ([], b).

(* src/lapack/inv.c:57-95:  mat_partition_2x2(.., 0, 0, ARMAS_PBOTTOMRIGHT) and
     while (ATL.rows > 0 && ATL.cols > 0) {
        mat_repartition_2x2to3x3(&ATL, ..., A, nb, ARMAS_PTOPLEFT);
        ...
        mat_continue_3x3to2x2(&ATL, ..., A, ARMAS_PTOPLEFT);
     } *)
Fixpoint trav_up (fuel : nat) (A : view) (nb : Z) (b : blk2)
  : option (list blk3 * blk2) :=
  if (rows (ATL b) >? 0) && (cols (ATL b) >? 0) then
    match fuel with
    | O => None
    | S f =>
        let t := mat_repartition_2x2to3x3 (ATL b) A nb PTop in
        match trav_up f A nb (mat_continue_3x3to2x2 (A00 t) (A11 t) A PTop) with
        | None => None
        | Some (l, e) => Some (t :: l, e)
        end
    end
  else Some ([], b).

(* lu.c:44-45 / inv.c: initial partitions *)
Definition traverse_down (fuel : nat) (A : view) (nb : Z) :=
  trav_down fuel A nb (mat_partition_2x2 A 0 0 PTop).
Definition traverse_up (fuel : nat) (A : view) (nb : Z) :=
  trav_up fuel A nb (mat_partition_2x2 A 0 0 PBottom).
