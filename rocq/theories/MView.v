(* MView.v: model of the matrix view functions of src/include/matrix.h and of
   the partitioning functions of src/include/partition.h. *)
From Coq Require Import ZArith Bool.
From Verif Require Import Mem.
Local Open Scope Z_scope.
Local Open Scope prog_scope.

(* src/include/matrix.h:32-39 struct armas_dense.  The ownership fields __data
   and __nbytes are not modelled: no modelled function reads them. *)
Record view : Type := mkview { elems : Z; step : Z; rows : Z; cols : Z }.

(* matrix.h:443 and 465: address of m->elems[col * m->step + row] *)
Definition addr (A : view) (i j : Z) : Z := elems A + (j * step A + i).

(* matrix.h:154-157 armas_isvector (non-null argument) *)
Definition armas_isvector (A : view) : bool := (rows A =? 1) || (cols A =? 1).

(* matrix.h:161-164 armas_size (non-null argument; int overflow: see MBase.v) *)
Definition armas_size (A : view) : Z := rows A * cols A.

(* matrix.h:167-172 armas_real_index; / and % truncate, as Z.quot and Z.rem do *)
Definition armas_real_index (A : view) (ix : Z) : Z :=
  if (cols A =? 1) || (step A =? rows A) then ix
  else step A * Z.quot ix (rows A) + Z.rem ix (rows A).

(* matrix.h:175-178 armas_index_valid *)
Definition armas_index_valid (A : view) (ix : Z) : bool :=
  (- armas_size A <=? ix) && (ix <? armas_size A).

(* matrix.h:223-232 armas_make *)
Definition armas_make (r c s e : Z) : view := mkview e s r c.

(* matrix.h:235-241 armas_zero; the null pointer is address 0 *)
Definition armas_zero : view := mkview 0 0 0 0.

(* matrix.h:245-262 armas_column *)
Definition armas_column (B : view) (c : Z) : view :=
  if armas_size B =? 0 then armas_zero
  else
    let c := if c <? 0 then c + cols B else c in
    mkview (elems B + c * step B) (step B) (rows B) 1.

(* matrix.h:265-275 armas_column_unsafe *)
Definition armas_column_unsafe (B : view) (c : Z) : view :=
  mkview (elems B + c * step B) (step B) (rows B) 1.

(* matrix.h:279-296 armas_row *)
Definition armas_row (B : view) (r : Z) : view :=
  if armas_size B =? 0 then armas_zero
  else
    let r := if r <? 0 then r + rows B else r in
    mkview (elems B + r) (step B) 1 (cols B).

(* matrix.h:299-309 armas_row_unsafe *)
Definition armas_row_unsafe (B : view) (r : Z) : view :=
  mkview (elems B + r) (step B) 1 (cols B).

(* matrix.h:313-340 armas_submatrix_ext; require() is empty unless
   ARMAS_WITH_CHECKS is defined *)
Definition armas_submatrix_ext (B : view) (r c nr nc st : Z) : view :=
  if armas_size B =? 0 then armas_zero
  else
    let r := if r <? 0 then r + rows B else r in
    let c := if c <? 0 then c + cols B else c in
    let nr := if nr <? 0 then rows B - r else nr in
    let nc := if nc <? 0 then cols B - c else nc in
    let st := if st <? 0 then step B else st in
    armas_make nr nc st (elems B + (c * step B + r)).

(* matrix.h:344-348 armas_submatrix *)
Definition armas_submatrix (B : view) (r c nr nc : Z) : view :=
  armas_submatrix_ext B r c nr nc (step B).

(* matrix.h:352-356 armas_submatrix_unsafe *)
Definition armas_submatrix_unsafe (B : view) (r c nr nc : Z) : view :=
  armas_make nr nc (step B) (elems B + (c * step B + r)).

(* matrix.h:360-373 armas_subvector; on a non-vector the C code leaves the
   elems and step fields of the result as they were, the model clears them *)
Definition armas_subvector (Y : view) (n len : Z) : view :=
  if negb (armas_isvector Y) then armas_zero
  else if rows Y =? 1 then armas_submatrix Y 0 n 1 len
  else armas_submatrix Y n 0 len 1.

(* matrix.h:377-386 armas_subvector_unsafe *)
Definition armas_subvector_unsafe (Y : view) (n len : Z) : view :=
  if rows Y =? 1 then armas_submatrix_unsafe Y 0 n 1 len
  else armas_submatrix_unsafe Y n 0 len 1.

(* matrix.h:390-408 armas_diag *)
Definition armas_diag (B : view) (k : Z) : view :=
  if k >? 0 then
    armas_submatrix_ext B 0 k 1
      (if rows B <? cols B - k then rows B else cols B - k) (step B + 1)
  else if k <? 0 then
    armas_submatrix_ext B (- k) 0 1
      (if rows B + k <? cols B then rows B + k else cols B) (step B + 1)
  else
    armas_submatrix_ext B 0 0 1
      (if rows B <? cols B then rows B else cols B) (step B + 1).

(* matrix.h:412-430 armas_diag_unsafe *)
Definition armas_diag_unsafe (B : view) (k : Z) : view :=
  if k >? 0 then
    armas_make 1 (if rows B <? cols B - k then rows B else cols B - k)
      (step B + 1) (elems B + k * step B)
  else if k <? 0 then
    armas_make 1 (if rows B + k <? cols B then rows B + k else cols B)
      (step B + 1) (elems B + - k)
  else
    armas_make 1 (if rows B <? cols B then rows B else cols B)
      (step B + 1) (elems B).

(* matrix.h:545-549 armas_col_as_row *)
Definition armas_col_as_row (c : view) : view :=
  armas_make 1 (armas_size c) 1 (elems c).

Section Access.
  Context {T : Type}.
  Variable zero : T.    (* the constant 0.0 *)

  (* matrix.h:434-444 armas_get *)
  Definition armas_get (A : view) (row col : Z) : M T T :=
    if armas_size A =? 0 then ret zero
    else
      let row := if row <? 0 then row + rows A else row in
      let col := if col <? 0 then col + cols A else col in
      rd (elems A + (col * step A + row)).

  (* matrix.h:448-452 armas_get_unsafe *)
  Definition armas_get_unsafe (A : view) (row col : Z) : M T T :=
    rd (elems A + (col * step A + row)).

  (* matrix.h:456-466 armas_set *)
  Definition armas_set (A : view) (row col : Z) (v : T) : M T unit :=
    if armas_size A =? 0 then ret tt
    else
      let row := if row <? 0 then row + rows A else row in
      let col := if col <? 0 then col + cols A else col in
      wr (elems A + (col * step A + row)) v.

  (* matrix.h:470-474 armas_set_unsafe *)
  Definition armas_set_unsafe (A : view) (row col : Z) (v : T) : M T unit :=
    wr (elems A + (col * step A + row)) v.

  (* matrix.h:478-486 armas_set_at *)
  Definition armas_set_at (A : view) (ix : Z) (v : T) : M T unit :=
    if armas_size A =? 0 then ret tt
    else
      let ix := if ix <? 0 then ix + armas_size A else ix in
      wr (elems A + armas_real_index A ix) v.

  (* matrix.h:490-494 armas_set_at_unsafe *)
  Definition armas_set_at_unsafe (A : view) (ix : Z) (v : T) : M T unit :=
    wr (elems A + (if rows A =? 1 then ix * step A else ix)) v.

  (* matrix.h:498-506 armas_get_at *)
  Definition armas_get_at (A : view) (ix : Z) : M T T :=
    if armas_size A =? 0 then ret zero
    else
      let ix := if ix <? 0 then ix + armas_size A else ix in
      rd (elems A + armas_real_index A ix).

  (* matrix.h:510-514 armas_get_at_unsafe *)
  Definition armas_get_at_unsafe (A : view) (ix : Z) : M T T :=
    rd (elems A + (if rows A =? 1 then ix * step A else ix)).
End Access.

(* matrix.h:518-528 armas_index *)
Definition armas_index (A : view) (row col : Z) : Z :=
  if armas_size A =? 0 then 0
  else
    let row := if row <? 0 then row + rows A else row in
    let col := if col <? 0 then col + cols A else col in
    col * step A + row.

(* ------------------------------------------------------------------ *)
(* src/include/partition.h.  Every function receives the destination views as
   pointers and overwrites them; the model returns them as a tuple.  Null
   destination pointers only suppress a component. *)

(* The direction constants of src/include/armas.h.  ARMAS_PTOP/PLEFT/PTOPLEFT
   (towards the origin) and ARMAS_PBOTTOM/PRIGHT/PBOTTOMRIGHT; any other value
   takes the default branch and is not modelled. *)
Inductive dir : Type := PTop | PBottom.

(* partition.h:38-55 mat_partition_2x1 *)
Definition mat_partition_2x1 (A : view) (nb : Z) (side : dir) : view * view :=
  let nb := if nb >? rows A then rows A else nb in
  match side with
  | PTop => (armas_submatrix_unsafe A 0 0 nb (cols A),
             armas_submatrix_unsafe A nb 0 (rows A - nb) (cols A))
  | PBottom => (armas_submatrix_unsafe A 0 0 (rows A - nb) (cols A),
                armas_submatrix_unsafe A (rows A - nb) 0 nb (cols A))
  end.

(* partition.h:81-104 mat_repartition_2x1to3x1 *)
Definition mat_repartition_2x1to3x1 (AT A : view) (nb : Z) (d : dir)
  : view * view * view :=
  match d with
  | PBottom =>
      let nb := if nb + rows AT >? rows A then rows A - rows AT else nb in
      (armas_submatrix_unsafe A 0 0 (rows AT) (cols A),
       armas_submatrix_unsafe A (rows AT) 0 nb (cols A),
       armas_submatrix_unsafe A (rows AT + nb) 0 (rows A - rows AT - nb) (cols A))
  | PTop =>
      let nb := if rows AT <? nb then rows AT else nb in
      (armas_submatrix_unsafe A 0 0 (rows AT - nb) (cols A),
       armas_submatrix_unsafe A (rows AT - nb) 0 nb (cols A),
       armas_submatrix_unsafe A (rows AT) 0 (rows A - rows AT) (cols A))
  end.

(* partition.h:128-145 mat_continue_3x1to2x1 *)
Definition mat_continue_3x1to2x1 (A0 A1 A : view) (d : dir) : view * view :=
  let nr0 := rows A0 in
  let nr1 := rows A1 in
  match d with
  | PBottom => (armas_submatrix_unsafe A 0 0 (nr0 + nr1) (cols A),
                armas_submatrix_unsafe A (nr0 + nr1) 0 (rows A - nr0 - nr1) (cols A))
  | PTop => (armas_submatrix_unsafe A 0 0 nr0 (cols A),
             armas_submatrix_unsafe A nr0 0 (rows A - nr0) (cols A))
  end.

(* partition.h:164-181 mat_partition_1x2; PTop is ARMAS_PLEFT, PBottom is
   ARMAS_PRIGHT *)
Definition mat_partition_1x2 (A : view) (nb : Z) (side : dir) : view * view :=
  let nb := if nb >? cols A then cols A else nb in
  match side with
  | PTop => (armas_submatrix_unsafe A 0 0 (rows A) nb,
             armas_submatrix_unsafe A 0 nb (rows A) (cols A - nb))
  | PBottom => (armas_submatrix_unsafe A 0 0 (rows A) (cols A - nb),
                armas_submatrix_unsafe A 0 (cols A - nb) (rows A) nb)
  end.

(* partition.h:217-240 mat_repartition_1x2to1x3 *)
Definition mat_repartition_1x2to1x3 (AL A : view) (nb : Z) (d : dir)
  : view * view * view :=
  match d with
  | PTop =>
      let nb := if nb >? cols AL then cols AL else nb in
      (armas_submatrix_unsafe A 0 0 (rows A) (cols AL - nb),
       armas_submatrix_unsafe A 0 (cols AL - nb) (rows A) nb,
       armas_submatrix_unsafe A 0 (cols AL) (rows A) (cols A - cols AL))
  | PBottom =>
      let nb := if cols AL + nb >? cols A then cols A - cols AL else nb in
      (armas_submatrix_unsafe A 0 0 (rows A) (cols AL),
       armas_submatrix_unsafe A 0 (cols AL) (rows A) nb,
       armas_submatrix_unsafe A 0 (cols AL + nb) (rows A) (cols A - cols AL - nb))
  end.

(* partition.h:275-291 mat_continue_1x3to1x2 *)
Definition mat_continue_1x3to1x2 (A0 A1 A : view) (d : dir) : view * view :=
  match d with
  | PTop => (armas_submatrix_unsafe A 0 0 (rows A) (cols A0),
             armas_submatrix_unsafe A 0 (cols A0) (rows A) (cols A - cols A0))
  | PBottom =>
      let nl := cols A0 + cols A1 in
      (armas_submatrix_unsafe A 0 0 (rows A) nl,
       armas_submatrix_unsafe A 0 nl (rows A) (cols A - nl))
  end.

Record blk2 : Type := mkblk2 { ATL : view; ATR : view; ABL : view; ABR : view }.

Record blk3 : Type := mkblk3 {
  A00 : view; A01 : view; A02 : view;
  A10 : view; A11 : view; A12 : view;
  A20 : view; A21 : view; A22 : view }.

(* partition.h:314-337 mat_partition_2x2 *)
Definition mat_partition_2x2 (A : view) (mb nb : Z) (side : dir) : blk2 :=
  match side with
  | PTop =>
      mkblk2 (armas_submatrix_unsafe A 0 0 mb nb)
             (armas_submatrix_unsafe A 0 nb mb (cols A - nb))
             (armas_submatrix_unsafe A mb 0 (rows A - mb) nb)
             (armas_submatrix_unsafe A mb nb (rows A - mb) (cols A - nb))
  | PBottom =>
      mkblk2 (armas_submatrix_unsafe A 0 0 (rows A - mb) (cols A - nb))
             (armas_submatrix_unsafe A 0 (cols A - nb) (rows A - mb) nb)
             (armas_submatrix_unsafe A (rows A - mb) 0 mb (cols A - nb))
             (armas_submatrix_unsafe A (rows A - mb) (cols A - nb) mb nb)
  end.

(* partition.h:376-432 mat_repartition_2x2to3x3 *)
Definition mat_repartition_2x2to3x3 (TL A : view) (nb : Z) (d : dir) : blk3 :=
  let kr := rows TL in
  let kc := cols TL in
  match d with
  | PBottom =>
      let nb := if kc + nb >? cols A then cols A - kc else nb in
      let nb := if kr + nb >? rows A then rows A - kr else nb in
      mkblk3
        (armas_submatrix_unsafe A 0 0 kr kc)
        (armas_submatrix_unsafe A 0 kc kr nb)
        (armas_submatrix_unsafe A 0 (kc + nb) kr (cols A - kc - nb))
        (armas_submatrix_unsafe A kr 0 nb kc)
        (armas_submatrix_unsafe A kr kc nb nb)
        (armas_submatrix_unsafe A kr (kc + nb) nb (cols A - kc - nb))
        (armas_submatrix_unsafe A (kr + nb) 0 (rows A - kr - nb) kc)
        (armas_submatrix_unsafe A (kr + nb) kc (rows A - kr - nb) nb)
        (armas_submatrix_unsafe A (kr + nb) (kc + nb) (rows A - kr - nb) (cols A - kc - nb))
  | PTop =>
      let nb := if nb >? kc then kc else nb in
      let nb := if nb >? kr then kr else nb in
      mkblk3
        (armas_submatrix_unsafe A 0 0 (kr - nb) (kc - nb))
        (armas_submatrix_unsafe A 0 (kc - nb) (kr - nb) nb)
        (armas_submatrix_unsafe A 0 kc (kr - nb) (cols A - kc))
        (armas_submatrix_unsafe A (kr - nb) 0 nb (kc - nb))
        (armas_submatrix_unsafe A (kr - nb) (kc - nb) nb nb)
        (armas_submatrix_unsafe A (kr - nb) kc nb (cols A - kc))
        (armas_submatrix_unsafe A kr 0 (rows A - kr) (kc - nb))
        (armas_submatrix_unsafe A kr (kc - nb) (rows A - kr) nb)
        (armas_submatrix_unsafe A kr kc (rows A - kr) (cols A - kc))
  end.

(* partition.h:468-496 mat_continue_3x3to2x2.  Line 492 gives ABL
   A->cols - kc columns, not kc; the model follows the code. *)
Definition mat_continue_3x3to2x2 (B00 B11 A : view) (d : dir) : blk2 :=
  let mb := cols B11 in
  let kr := rows B00 in
  let kc := cols B00 in
  match d with
  | PBottom =>
      mkblk2 (armas_submatrix_unsafe A 0 0 (kr + mb) (kc + mb))
             (armas_submatrix_unsafe A 0 (kc + mb) (kr + mb) (cols A - kc - mb))
             (armas_submatrix_unsafe A (kr + mb) 0 (rows A - kr - mb) (kc + mb))
             (armas_submatrix_unsafe A (kr + mb) (kc + mb)
                (rows A - kr - mb) (cols A - kc - mb))
  | PTop =>
      mkblk2 (armas_submatrix_unsafe A 0 0 kr kc)
             (armas_submatrix_unsafe A 0 kc kr (cols A - kc))
             (armas_submatrix_unsafe A kr 0 (rows A - kr) (cols A - kc))
             (armas_submatrix_unsafe A kr kc (rows A - kr) (cols A - kc))
  end.

(* partition.h:510-524 mat_merge2x1; with two empty parts the C code leaves the
   elems field of the result as it was, the model clears it *)
Definition mat_merge2x1 (AT AB : view) : view :=
  if (armas_size AT =? 0) && (armas_size AB =? 0) then mkview 0 (step AB) 0 0
  else if armas_size AT =? 0 then armas_submatrix_unsafe AB 0 0 (rows AB) (cols AB)
  else if armas_size AB =? 0 then armas_submatrix_unsafe AT 0 0 (rows AT) (cols AT)
  else armas_make (rows AT + rows AB) (cols AT) (step AT) (elems AT).

(* partition.h:540-554 mat_merge1x2 *)
Definition mat_merge1x2 (AL AR : view) : view :=
  if (armas_size AL =? 0) && (armas_size AR =? 0) then mkview 0 (step AL) 0 0
  else if armas_size AL =? 0 then armas_submatrix_unsafe AR 0 0 (rows AR) (cols AR)
  else if armas_size AR =? 0 then armas_submatrix_unsafe AL 0 0 (rows AL) (cols AL)
  else armas_make (rows AL) (cols AL + cols AR) (step AL) (elems AL).

(* partition.h:572-590 vec_partition_2x1 *)
Definition vec_partition_2x1 (x : view) (nb : Z) (side : dir) : view * view :=
  let nr := armas_size x in
  let nb := if nb >? nr then nr else nb in
  match side with
  | PTop => (armas_subvector_unsafe x 0 nb,
             armas_subvector_unsafe x nb (nr - nb))
  | PBottom => (armas_subvector_unsafe x 0 (nr - nb),
                armas_subvector_unsafe x (nr - nb) nb)
  end.

(* partition.h:622-647 vec_repartition_2x1to3x1 *)
Definition vec_repartition_2x1to3x1 (xT x : view) (nb : Z) (d : dir)
  : view * view * view :=
  let nr := armas_size x in
  let nrt := armas_size xT in
  match d with
  | PBottom =>
      let nb := if nb + nrt >? nr then nr - nrt else nb in
      (armas_subvector_unsafe x 0 nrt,
       armas_subvector_unsafe x nrt nb,
       armas_subvector_unsafe x (nrt + nb) (nr - nrt - nb))
  | PTop =>
      let nb := if nrt <? nb then nrt else nb in
      (armas_subvector_unsafe x 0 (nrt - nb),
       armas_subvector_unsafe x (nrt - nb) nb,
       armas_subvector_unsafe x nrt (nr - nrt))
  end.

(* partition.h:678-696 vec_continue_3x1to2x1 *)
Definition vec_continue_3x1to2x1 (x0 x1 x : view) (d : dir) : view * view :=
  let nr := armas_size x in
  let nr0 := armas_size x0 in
  let nr1 := armas_size x1 in
  match d with
  | PBottom => (armas_subvector_unsafe x 0 (nr0 + nr1),
                armas_subvector_unsafe x (nr0 + nr1) (nr - nr0 - nr1))
  | PTop => (armas_subvector_unsafe x 0 nr0,
             armas_subvector_unsafe x nr0 (nr - nr0))
  end.
