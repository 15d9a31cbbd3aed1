(* SpecBlas.v: what the reference BLAS says, in terms of the addresses of the arguments. *)
From Coq Require Import ZArith Bool.
From Verif Require Import MView SpecView MNum SpecNum.
Local Open Scope Z_scope.

(* the address of element (i, j) of a matrix at address a with leading dimension ld, stored by
   rows (CblasRowMajor) or by columns *)
Definition adr (row : bool) (a ld i j : Z) : Z := if row then a + i * ld + j else a + j * ld + i.
Definition mel {T} (m : Z -> T) (row : bool) (a ld i j : Z) : T := m (adr row a ld i j).
(* element (i, j) of the matrix or of its transpose *)
Definition opel {T} (m : Z -> T) (row t : bool) (a ld i j : Z) : T :=
  if t then mel m row a ld j i else mel m row a ld i j.
(* of the symmetric matrix of which one triangle is stored *)
Definition symel {T} (m : Z -> T) (row upper : bool) (a ld i j : Z) : T :=
  if (if upper then i <=? j else j <=? i) then mel m row a ld i j else mel m row a ld j i.
(* of the triangular matrix *)
Definition triel {T} (K : num T) (m : Z -> T) (row upper unit : bool) (a ld i j : Z) : T :=
  if i =? j then (if unit then one K else mel m row a ld i j)
  else if (if upper then i <? j else j <? i) then mel m row a ld i j else zero K.
Definition optriel {T} (K : num T) (m : Z -> T) (row upper unit t : bool) (a ld i j : Z) : T :=
  if t then triel K m row upper unit a ld j i else triel K m row upper unit a ld i j.

(* the place of an r by c matrix *)
Definition place (row : bool) (a ld r c : Z) : view := if row then mkview a ld c r else mkview a ld r c.
(* of a matrix whose transpose (t) or itself is r by c *)
Definition oplace (row t : bool) (a ld r c : Z) : view := if t then place row a ld c r else place row a ld r c.

(* xGEMM: C := alpha*op(A)*op(B) + beta*C, C is m by n *)
Definition gemm_done {T} (K : num T) (row ta tb : bool) (m n k : Z) (alpha : T) (A lda B ldb : Z) (beta : T) (C ldc : Z)
    (mem mem' : Z -> T) : Prop :=
  forall i j, 0 <= i < m -> 0 <= j < n ->
    mel mem' row C ldc i j = add K (mul K beta (mel mem row C ldc i j))
      (mul K alpha (vsum K k (fun l => mul K (opel mem row ta A lda i l) (opel mem row tb B ldb l j)))).

(* xSYMM: C := alpha*A*B + beta*C or alpha*B*A + beta*C, C is m by n *)
Definition symm_done {T} (K : num T) (row right upper : bool) (m n : Z) (alpha : T) (A lda B ldb : Z) (beta : T) (C ldc : Z)
    (mem mem' : Z -> T) : Prop :=
  forall i j, 0 <= i < m -> 0 <= j < n ->
    mel mem' row C ldc i j = add K (mul K beta (mel mem row C ldc i j)) (mul K alpha
      (if right then vsum K n (fun l => mul K (mel mem row B ldb i l) (symel mem row upper A lda l j))
       else vsum K m (fun l => mul K (symel mem row upper A lda i l) (mel mem row B ldb l j)))).

(* xSYRK: C := alpha*op(A)*op(A)^T + beta*C in one triangle of the n by n matrix C *)
Definition syrk_done {T} (K : num T) (row upper t : bool) (n k : Z) (alpha : T) (A lda : Z) (beta : T) (C ldc : Z)
    (mem mem' : Z -> T) : Prop :=
  forall i j, 0 <= i < n -> 0 <= j < n ->
    mel mem' row C ldc i j =
      if (if upper then i <=? j else j <=? i) then add K (mul K beta (mel mem row C ldc i j))
        (mul K alpha (vsum K k (fun l => mul K (opel mem row t A lda i l) (opel mem row t A lda j l))))
      else mel mem row C ldc i j.

(* xSYR2K: C := alpha*op(A)*op(B)^T + alpha*op(B)*op(A)^T + beta*C in one triangle *)
Definition syr2k_done {T} (K : num T) (row upper t : bool) (n k : Z) (alpha : T) (A lda B ldb : Z) (beta : T) (C ldc : Z)
    (mem mem' : Z -> T) : Prop :=
  forall i j, 0 <= i < n -> 0 <= j < n ->
    mel mem' row C ldc i j =
      if (if upper then i <=? j else j <=? i) then add K (mul K beta (mel mem row C ldc i j))
        (mul K alpha (add K (vsum K k (fun l => mul K (opel mem row t A lda i l) (opel mem row t B ldb j l)))
                            (vsum K k (fun l => mul K (opel mem row t B ldb i l) (opel mem row t A lda j l)))))
      else mel mem row C ldc i j.

(* xTRMM: B := alpha*op(A)*B or alpha*B*op(A), B is m by n *)
Definition trmm_done {T} (K : num T) (row right upper unit t : bool) (m n : Z) (alpha : T) (A lda B ldb : Z)
    (mem mem' : Z -> T) : Prop :=
  forall i j, 0 <= i < m -> 0 <= j < n ->
    mel mem' row B ldb i j = mul K alpha
      (if right then vsum K n (fun l => mul K (mel mem row B ldb i l) (optriel K mem row upper unit t A lda l j))
       else vsum K m (fun l => mul K (optriel K mem row upper unit t A lda i l) (mel mem row B ldb l j))).

(* xTRSM: the new B solves op(A)*X = alpha*B or X*op(A) = alpha*B *)
Definition trsm_done {T} (K : num T) (row right upper unit t : bool) (m n : Z) (alpha : T) (A lda B ldb : Z)
    (mem mem' : Z -> T) : Prop :=
  forall i j, 0 <= i < m -> 0 <= j < n ->
    (if right then vsum K n (fun l => mul K (mel mem' row B ldb i l) (optriel K mem row upper unit t A lda l j))
     else vsum K m (fun l => mul K (optriel K mem row upper unit t A lda i l) (mel mem' row B ldb l j))) =
    mul K alpha (mel mem row B ldb i j).

(* the letters of the Fortran interface *)
Definition letter (c up low : Z) : Prop := c = up \/ c = low.
(* TRANS: 'N' or 'n' no, 'T' or 't' and for real matrices also 'C' or 'c' yes *)
Definition trans_is (c : Z) (t : bool) : Prop :=
  if t then letter c 84 116 \/ letter c 67 99 else letter c 78 110.
Definition side_is (c : Z) (right : bool) : Prop := if right then letter c 82 114 else letter c 76 108.
Definition uplo_is (c : Z) (upper : bool) : Prop := if upper then letter c 85 117 else letter c 76 108.
Definition diag_is (c : Z) (unit : bool) : Prop := if unit then letter c 85 117 else letter c 78 110.
