(* Properties_View.v: C01-C05, matrix views and partitions. *)
From Coq Require Import ZArith List Lia Bool ZifyBool.
From Verif Require Import Mem MView MTraverse SpecView PView PTraverse PSub.
Import ListNotations.
Local Open Scope Z_scope.

(* a 5 x 4 matrix with leading dimension 7 at address 100 *)
Definition ex_A : view := mkview 100 7 5 4.
Definition ex_L : Z -> bool := fun a => (100 <=? a) && (a <? 128).
Example ex_A_wf : wf ex_A. Proof. unfold wf, ex_A; cbn; lia. Qed.
Example ex_A_alloc : allocated ex_L ex_A.
Proof.
  intros a (i & j & (Hi & Hj) & E). unfold ex_A in *. cbn [elems step rows cols] in *.
  unfold ex_L. lia.
Qed.

(* ---- C01 ---- *)

Theorem C01_positions_are_distinct_cells : forall A i j i' j',
  wf A -> pos A i j -> pos A i' j' ->
  elems A + j * step A + i = elems A + j' * step A + i' -> i = i' /\ j = j'.
Proof. intros A i j i' j' Hw H H' E. apply (pos_inj A); auto. lia. Qed.
Print Assumptions C01_positions_are_distinct_cells.

Theorem C01_get_reads_the_element : forall T (zero : T) L m A row col,
  allocated L A -> pos A (norm_ix (rows A) row) (norm_ix (cols A) col) ->
  armas_get zero A row col L m =
    Some (elt m A (norm_ix (rows A) row) (norm_ix (cols A) col), m).
Proof. intros. apply get_run; auto. Qed.
Print Assumptions C01_get_reads_the_element.

Theorem C01_set_changes_one_element : forall T L (m : Z -> T) A row col v,
  wf A -> allocated L A -> pos A (norm_ix (rows A) row) (norm_ix (cols A) col) ->
  exists m', armas_set A row col v L m = Some (tt, m') /\
    elt m' A (norm_ix (rows A) row) (norm_ix (cols A) col) = v /\
    (forall r c, pos A r c ->
       (r, c) <> (norm_ix (rows A) row, norm_ix (cols A) col) ->
       elt m' A r c = elt m A r c) /\
    only_changes A m m'.
Proof. intros. apply set_spec; auto. Qed.
Print Assumptions C01_set_changes_one_element.

Theorem C01_get_after_set : forall T (zero : T) L (m : Z -> T) A row col v,
  wf A -> allocated L A -> pos A (norm_ix (rows A) row) (norm_ix (cols A) col) ->
  exists m', armas_set A row col v L m = Some (tt, m') /\
             armas_get zero A row col L m' = Some (v, m').
Proof.
  intros T zero L m A row col v Hw HL Hp.
  destruct (set_spec T L m A row col v Hw Hp HL) as (m' & E & Hv & _).
  exists m'. split; [exact E|]. rewrite get_run by auto. rewrite Hv. reflexivity.
Qed.
Print Assumptions C01_get_after_set.

(* index -1 is the last row, -4 the first column *)
Example C01_nonvacuous :
  pos ex_A (norm_ix (rows ex_A) (-1)) (norm_ix (cols ex_A) (-4)) /\
  norm_ix (rows ex_A) (-1) = 4 /\ norm_ix (cols ex_A) (-4) = 0.
Proof. unfold pos, ex_A; cbn; lia. Qed.

(* ---- C02 ---- *)

Theorem C02_submatrix : forall B r c nr nc,
  wf B -> 0 < rows B -> 0 < cols B ->
  let r' := norm_ix (rows B) r in
  let c' := norm_ix (cols B) c in
  let nr' := if nr <? 0 then rows B - r' else nr in
  let nc' := if nc <? 0 then cols B - c' else nc in
  0 <= r' -> 0 <= c' -> 0 <= nr' -> 0 <= nc' ->
  r' + nr' <= rows B -> c' + nc' <= cols B ->
  shows (armas_submatrix B r c nr nc) B r' c' nr' nc'.
Proof. intros; apply submatrix_shows; auto. Qed.
Print Assumptions C02_submatrix.

Theorem C02_column : forall B c, wf B -> 0 < rows B -> 0 < cols B ->
  0 <= norm_ix (cols B) c < cols B ->
  shows (armas_column B c) B 0 (norm_ix (cols B) c) (rows B) 1.
Proof. intros; apply column_shows; auto. Qed.
Print Assumptions C02_column.

Theorem C02_row : forall B r, wf B -> 0 < rows B -> 0 < cols B ->
  0 <= norm_ix (rows B) r < rows B ->
  shows (armas_row B r) B (norm_ix (rows B) r) 0 1 (cols B).
Proof. intros; apply row_shows; auto. Qed.
Print Assumptions C02_row.

Theorem C02_diagonal : forall B k, wf B -> 0 < rows B -> 0 < cols B ->
  - rows B < k < cols B ->
  let r := Z.max 0 (- k) in
  let c := Z.max 0 k in
  let n := Z.min (rows B - r) (cols B - c) in
  rows (armas_diag B k) = 1 /\ cols (armas_diag B k) = n /\
  (forall T (m : Z -> T) d, 0 <= d < n ->
     velt m (armas_diag B k) d = elt m B (r + d) (c + d)) /\
  (forall a, cell (armas_diag B k) a -> cell B a) /\ wf (armas_diag B k) /\
  armas_diag_unsafe B k = armas_diag B k.
Proof. intros; apply diag_spec; auto. Qed.
Print Assumptions C02_diagonal.

Theorem C02_subvector : forall x n len, isvec x -> wf x -> 0 < vlen x ->
  let n' := norm_ix (vlen x) n in
  let len' := if len <? 0 then vlen x - n' else len in
  0 <= n' -> 0 <= len' -> n' + len' <= vlen x ->
  vshows (armas_subvector x n len) x n' len'.
Proof.
  intros. rewrite subvector_eq by auto. apply subvec_unsafe_vshows; auto.
Qed.
Print Assumptions C02_subvector.

(* a view of a view shows the composed position *)
Theorem C02_nested : forall A B C r c nr nc r' c' nr' nc',
  shows B A r c nr nc -> shows C B r' c' nr' nc' ->
  0 <= r' -> 0 <= c' -> r' + nr' <= nr -> c' + nc' <= nc ->
  shows C A (r + r') (c + c') nr' nc'.
Proof.
  intros A B C r c nr nc r' c' nr' nc' (R1 & C1 & E1 & I1 & W1) (R2 & C2 & E2 & I2 & W2) H1 H2 H3 H4.
  repeat split; auto; try apply W2.
  intros T m i j (Hi & Hj). rewrite E2, E1 by (split; lia). f_equal; lia.
Qed.
Print Assumptions C02_nested.

Example C02_nonvacuous :
  shows (armas_submatrix ex_A (-4) 1 (-1) 2) ex_A 1 1 4 2 /\
  vlen (armas_diag ex_A (-2)) = 3.
Proof.
  split; [|reflexivity].
  apply (C02_submatrix ex_A (-4) 1 (-1) 2 ex_A_wf); cbn; lia.
Qed.

(* ---- C03 ---- *)

Theorem C03_get_at : forall T (zero : T) L m A ix, wf A -> allocated L A ->
  - (rows A * cols A) <= ix < rows A * cols A ->
  let k := norm_ix (rows A * cols A) ix in
  armas_get_at zero A ix L m = Some (elt m A (k mod rows A) (k / rows A), m).
Proof. intros; apply get_at_run; auto. Qed.
Print Assumptions C03_get_at.

Theorem C03_set_at : forall T L (m : Z -> T) A ix v, wf A -> allocated L A ->
  - (rows A * cols A) <= ix < rows A * cols A ->
  let k := norm_ix (rows A * cols A) ix in
  exists m', armas_set_at A ix v L m = Some (tt, m') /\
    elt m' A (k mod rows A) (k / rows A) = v /\
    (forall r c, pos A r c -> (r, c) <> (k mod rows A, k / rows A) ->
       elt m' A r c = elt m A r c) /\
    only_changes A m m'.
Proof. intros; apply set_at_spec; auto. Qed.
Print Assumptions C03_set_at.

(* the linear indices 0 .. size-1 enumerate the positions exactly once *)
Theorem C03_enumeration : forall A, wf A ->
  (forall k, 0 <= k < rows A * cols A -> pos A (k mod rows A) (k / rows A)) /\
  (forall i j, pos A i j -> exists! k,
     0 <= k < rows A * cols A /\ (k mod rows A, k / rows A) = (i, j)).
Proof. intros; apply linear_enumeration; auto. Qed.
Print Assumptions C03_enumeration.

(* for vectors the unchecked accessors reach the k-th element as well *)
Theorem C03_get_at_unsafe : forall T L (m : Z -> T) x k, isvec x -> wf x -> allocated L x ->
  0 <= k < vlen x -> armas_get_at_unsafe x k L m = Some (velt m x k, m).
Proof. intros; apply get_at_unsafe_run; auto. Qed.
Print Assumptions C03_get_at_unsafe.

Theorem C03_set_at_unsafe : forall T L (m : Z -> T) x k v, isvec x -> wf x -> allocated L x ->
  0 <= k < vlen x ->
  exists m', armas_set_at_unsafe x k v L m = Some (tt, m') /\
    velt m' x k = v /\
    (forall q, 0 <= q < vlen x -> q <> k -> velt m' x q = velt m x q) /\
    only_changes x m m'.
Proof. intros; apply set_at_unsafe_spec; auto. Qed.
Print Assumptions C03_set_at_unsafe.

Example C03_nonvacuous :
  armas_get_at 0 ex_A (-1) ex_L (fun a => a * a) = Some (125 * 125, fun a => a * a).
Proof. reflexivity. Qed.

(* ---- C04 ---- *)

Theorem C04_partition_2x2_tiles : forall A mb nb d,
  wf A -> 0 <= mb <= rows A -> 0 <= nb <= cols A ->
  tiles (list2 (mat_partition_2x2 A mb nb d)) A.
Proof. intros; apply part_2x2_tiles; auto. Qed.
Print Assumptions C04_partition_2x2_tiles.

Theorem C04_repartition_3x3_tiles : forall A TL nb d,
  wf A -> 0 <= nb -> 0 <= rows TL <= rows A -> 0 <= cols TL <= cols A ->
  tiles (list3 (mat_repartition_2x2to3x3 TL A nb d)) A.
Proof. intros; apply repart_2x2_tiles; auto. Qed.
Print Assumptions C04_repartition_3x3_tiles.

Theorem C04_continue_2x2_tiles : forall A B00 B11,
  wf A -> 0 <= rows B00 -> 0 <= cols B00 -> 0 <= cols B11 ->
  rows B00 + cols B11 <= rows A -> cols B00 + cols B11 <= cols A ->
  tiles (list2 (mat_continue_3x3to2x2 B00 B11 A PBottom)) A.
Proof. intros; apply cont_3x3_tiles_bottom; auto. Qed.
Print Assumptions C04_continue_2x2_tiles.

(* towards the origin the block ABL gets the wrong number of columns
   (partition.h:492); the other three blocks are right *)
Theorem C04_continue_up_tiles_partial : forall A B00 B11,
  wf A -> 0 <= rows B00 <= rows A -> 0 <= cols B00 <= cols A ->
  let b := mat_continue_3x3to2x2 B00 B11 A PTop in
  tiles [ATL b; ATR b;
         armas_submatrix_unsafe A (rows B00) 0 (rows A - rows B00) (cols B00); ABR b] A /\
  elems (ABL b) = elems A + rows B00.
Proof. intros; apply cont_3x3_top; auto. Qed.
Print Assumptions C04_continue_up_tiles_partial.

Theorem C04_continue_up_refuted : exists A B00 B11,
  wf A /\ 0 <= rows B00 <= rows A /\ 0 <= cols B00 <= cols A /\
  ~ tiles (list2 (mat_continue_3x3to2x2 B00 B11 A PTop)) A.
Proof.
  exists (mkview 0 3 3 3), (mkview 0 3 1 1), (mkview 4 3 1 1).
  repeat split; try (cbn; lia). intros (_ & H). cbn [list2 pairwise_disjoint] in H.
  destruct H as (_ & _ & H & _). inversion H as [|? ? Hd ?]; subst.
  apply (Hd 4).
  - exists 0, 1. split; [split; cbn; lia | reflexivity].
  - exists 0, 0. split; [split; cbn; lia | reflexivity].
Qed.
Print Assumptions C04_continue_up_refuted.

Theorem C04_traversal_down : forall A nb, wf A -> 1 <= nb ->
  let n := Z.min (rows A) (cols A) in
  exists blocks e,
    (forall fuel, (Z.to_nat n <= fuel)%nat -> traverse_down fuel A nb = Some (blocks, e)) /\
    rows (ATL e) = n /\ cols (ATL e) = n /\
    (forall q t, nth_error blocks q = Some t ->
       tiles (list3 t) A /\
       is_square_block A (A11 t) (Z.of_nat q * nb) (Z.of_nat q * nb)
         (Z.min nb (n - Z.of_nat q * nb))) /\
    (forall d, 0 <= d < n -> exists! q, exists t,
        nth_error blocks q = Some t /\ cell (A11 t) (elems A + d * step A + d)).
Proof. exact traverse_down_spec. Qed.
Print Assumptions C04_traversal_down.

Theorem C04_traversal_up : forall A nb, wf A -> 1 <= nb ->
  let n := Z.min (rows A) (cols A) in
  exists blocks e,
    (forall fuel, (Z.to_nat n <= fuel)%nat -> traverse_up fuel A nb = Some (blocks, e)) /\
    rows (ATL e) = rows A - n /\ cols (ATL e) = cols A - n /\
    (forall q t, nth_error blocks q = Some t ->
       tiles (list3 t) A /\
       let k := Z.min nb (n - Z.of_nat q * nb) in
       is_square_block A (A11 t) (rows A - Z.of_nat q * nb - k) (cols A - Z.of_nat q * nb - k) k) /\
    (forall d, 0 <= d < n -> exists! q, exists t,
        nth_error blocks q = Some t /\
        cell (A11 t) (elems A + (cols A - 1 - d) * step A + (rows A - 1 - d))).
Proof. exact traverse_up_spec. Qed.
Print Assumptions C04_traversal_up.

(* two rounds of block size 3 on a 5 x 4 matrix *)
Example C04_nonvacuous :
  match traverse_down 4 ex_A 3 with
  | Some (l, _) => map (fun t => (elems (A11 t), rows (A11 t))) l = [(100, 3); (124, 1)]
  | None => False
  end.
Proof. reflexivity. Qed.

(* ---- C05 ---- *)

Theorem C05_partition_2x1 : forall A nb d, wf A -> 0 <= nb ->
  forall T B, mat_partition_2x1 A nb d = (T, B) -> tiles [T; B] A.
Proof. exact part_2x1_tiles. Qed.
Print Assumptions C05_partition_2x1.

Theorem C05_repartition_3x1 : forall A AT nb d, wf A -> 0 <= nb -> 0 <= rows AT <= rows A ->
  forall B0 B1 B2, mat_repartition_2x1to3x1 AT A nb d = (B0, B1, B2) ->
  tiles [B0; B1; B2] A /\
  match d with
  | PBottom => rows B0 = rows AT /\ rows B1 = Z.min nb (rows A - rows AT)
  | PTop => rows B0 + rows B1 = rows AT /\ rows B1 = Z.min nb (rows AT)
  end.
Proof. exact repart_2x1_tiles. Qed.
Print Assumptions C05_repartition_3x1.

Theorem C05_continue_2x1 : forall A B0 B1 d, wf A -> 0 <= rows B0 -> 0 <= rows B1 ->
  rows B0 + rows B1 <= rows A ->
  forall T B, mat_continue_3x1to2x1 B0 B1 A d = (T, B) ->
  tiles [T; B] A /\
  rows T = match d with PBottom => rows B0 + rows B1 | PTop => rows B0 end.
Proof. exact cont_3x1_tiles. Qed.
Print Assumptions C05_continue_2x1.

Theorem C05_partition_1x2 : forall A nb d, wf A -> 0 <= nb ->
  forall Lf R, mat_partition_1x2 A nb d = (Lf, R) -> tiles [Lf; R] A.
Proof. exact part_1x2_tiles. Qed.
Print Assumptions C05_partition_1x2.

Theorem C05_repartition_1x3 : forall A AL nb d, wf A -> 0 <= nb -> 0 <= cols AL <= cols A ->
  forall B0 B1 B2, mat_repartition_1x2to1x3 AL A nb d = (B0, B1, B2) ->
  tiles [B0; B1; B2] A /\
  match d with
  | PBottom => cols B0 = cols AL /\ cols B1 = Z.min nb (cols A - cols AL)
  | PTop => cols B0 + cols B1 = cols AL /\ cols B1 = Z.min nb (cols AL)
  end.
Proof. exact repart_1x2_tiles. Qed.
Print Assumptions C05_repartition_1x3.

Theorem C05_continue_1x2 : forall A B0 B1 d, wf A -> 0 <= cols B0 -> 0 <= cols B1 ->
  cols B0 + cols B1 <= cols A ->
  forall Lf R, mat_continue_1x3to1x2 B0 B1 A d = (Lf, R) ->
  tiles [Lf; R] A /\
  cols Lf = match d with PBottom => cols B0 + cols B1 | PTop => cols B0 end.
Proof. exact cont_1x3_tiles. Qed.
Print Assumptions C05_continue_1x2.

Theorem C05_vec_partition : forall x nb d, isvec x -> wf x -> 0 <= nb ->
  forall a b, vec_partition_2x1 x nb d = (a, b) -> tiles [a; b] x /\
    match d with PTop => vlen a = Z.min nb (vlen x) | PBottom => vlen b = Z.min nb (vlen x) end.
Proof. exact vec_part_tiles. Qed.
Print Assumptions C05_vec_partition.

Theorem C05_vec_repartition : forall x xT nb d, isvec x -> wf x -> 0 <= nb ->
  0 <= vlen xT <= vlen x ->
  forall a b c, vec_repartition_2x1to3x1 xT x nb d = (a, b, c) -> tiles [a; b; c] x /\
    match d with
    | PBottom => vlen a = vlen xT /\ vlen b = Z.min nb (vlen x - vlen xT)
    | PTop => vlen a + vlen b = vlen xT /\ vlen b = Z.min nb (vlen xT)
    end.
Proof. exact vec_repart_tiles. Qed.
Print Assumptions C05_vec_repartition.

Theorem C05_vec_continue : forall x x0 x1 d, isvec x -> wf x ->
  0 <= vlen x0 -> 0 <= vlen x1 -> vlen x0 + vlen x1 <= vlen x ->
  forall a b, vec_continue_3x1to2x1 x0 x1 x d = (a, b) -> tiles [a; b] x /\
    vlen a = match d with PBottom => vlen x0 + vlen x1 | PTop => vlen x0 end.
Proof. exact vec_cont_tiles. Qed.
Print Assumptions C05_vec_continue.

Theorem C05_merge_2x1 : forall A nb d, wf A -> 0 <= nb -> 0 < rows A -> 0 < cols A ->
  let (T, B) := mat_partition_2x1 A nb d in mat_merge2x1 T B = A.
Proof. exact merge2x1_part. Qed.
Print Assumptions C05_merge_2x1.

Theorem C05_merge_1x2 : forall A nb d, wf A -> 0 <= nb -> 0 < rows A -> 0 < cols A ->
  let (Lf, R) := mat_partition_1x2 A nb d in mat_merge1x2 Lf R = A.
Proof. exact merge1x2_part. Qed.
Print Assumptions C05_merge_1x2.

Example C05_nonvacuous :
  exists T B, mat_partition_2x1 ex_A 2 PBottom = (T, B) /\ rows T = 3 /\ rows B = 2 /\
    elems B = 103 /\ mat_merge2x1 T B = ex_A.
Proof. eexists _, _. repeat split. Qed.
