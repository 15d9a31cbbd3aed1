(* PView.v: lemmas on views. *)
From Coq Require Import ZArith List Lia Bool ZifyBool.
From Verif Require Import Mem MView SpecView.
Import ListNotations.
Local Open Scope Z_scope.
Local Open Scope prog_scope.

Ltac dbool :=
  repeat match goal with
  | |- context [if ?b then _ else _] =>
      lazymatch b with context [if _ then _ else _] => fail | _ => destruct b eqn:? end
  end.

Lemma addr_elt : forall A i j, addr A i j = elems A + j * step A + i.
Proof. intros; unfold addr; lia. Qed.

Lemma pos_inj : forall A i j i' j', wf A -> pos A i j -> pos A i' j' ->
  j * step A + i = j' * step A + i' -> i = i' /\ j = j'.
Proof.
  intros A i j i' j' (Hr & Hc & Hs) (Hi & Hj) (Hi' & Hj') E.
  assert (j = j').
  { destruct (Z.lt_trichotomy j j') as [Hlt | [He | Hlt]]; [ exfalso | exact He | exfalso ].
    - assert ((j + 1) * step A <= j' * step A) by (apply Z.mul_le_mono_nonneg_r; lia). lia.
    - assert ((j' + 1) * step A <= j * step A) by (apply Z.mul_le_mono_nonneg_r; lia). lia. }
  subst; lia.
Qed.

Lemma addr_inj : forall A i j i' j', wf A -> pos A i j -> pos A i' j' ->
  addr A i j = addr A i' j' -> i = i' /\ j = j'.
Proof. intros. unfold addr in *. apply (pos_inj A); auto. lia. Qed.

Lemma cell_addr : forall A i j, pos A i j -> cell A (addr A i j).
Proof. intros; exists i, j; split; auto. unfold addr; lia. Qed.

Lemma cell_elt : forall A i j, pos A i j -> cell A (elems A + j * step A + i).
Proof. intros; exists i, j; split; auto. Qed.

Lemma alloc_addr : forall L A i j, allocated L A -> pos A i j -> L (addr A i j) = true.
Proof. intros; apply H, cell_addr; auto. Qed.

Lemma size_nonzero : forall A i j, pos A i j -> armas_size A =? 0 = false.
Proof. unfold pos, armas_size; intros. apply Z.eqb_neq. nia. Qed.

(* get / set *)

Lemma get_run : forall T (z : T) L m A i j,
  pos A (norm_ix (rows A) i) (norm_ix (cols A) j) -> allocated L A ->
  armas_get z A i j L m = Some (elt m A (norm_ix (rows A) i) (norm_ix (cols A) j), m).
Proof.
  intros T z L m A i j H HL. unfold armas_get. rewrite (size_nonzero _ _ _ H).
  fold (norm_ix (rows A) i) (norm_ix (cols A) j). cbv zeta.
  rewrite run_rd. fold (addr A (norm_ix (rows A) i) (norm_ix (cols A) j)).
  rewrite (alloc_addr L A) by auto. unfold elt. rewrite addr_elt. reflexivity.
Qed.

Lemma set_run : forall T L (m : Z -> T) A i j v,
  pos A (norm_ix (rows A) i) (norm_ix (cols A) j) -> allocated L A ->
  armas_set A i j v L m =
    Some (tt, fun a => if a =? addr A (norm_ix (rows A) i) (norm_ix (cols A) j) then v else m a).
Proof.
  intros T L m A i j v H HL. unfold armas_set. rewrite (size_nonzero _ _ _ H).
  fold (norm_ix (rows A) i) (norm_ix (cols A) j). cbv zeta.
  rewrite run_wr. fold (addr A (norm_ix (rows A) i) (norm_ix (cols A) j)).
  rewrite (alloc_addr L A) by auto. reflexivity.
Qed.

Lemma set_spec : forall T L (m : Z -> T) A i j v, wf A ->
  pos A (norm_ix (rows A) i) (norm_ix (cols A) j) -> allocated L A ->
  exists m', armas_set A i j v L m = Some (tt, m') /\
    elt m' A (norm_ix (rows A) i) (norm_ix (cols A) j) = v /\
    (forall r c, pos A r c -> (r, c) <> (norm_ix (rows A) i, norm_ix (cols A) j) ->
       elt m' A r c = elt m A r c) /\
    only_changes A m m'.
Proof.
  intros T L m A i j v Hwf H HL. eexists. split; [apply set_run; auto|]. cbv beta.
  repeat split.
  - unfold elt. rewrite <- addr_elt, Z.eqb_refl. reflexivity.
  - intros r c Hp Hn. unfold elt. rewrite <- addr_elt.
    destruct (_ =? _) eqn:E; auto. exfalso. apply Z.eqb_eq in E.
    apply addr_inj in E; auto. destruct E; subst. apply Hn; auto.
  - intros a Ha. destruct (_ =? _) eqn:E; auto. exfalso; apply Ha.
    apply Z.eqb_eq in E; subst. apply cell_addr; auto.
Qed.

(* linear index *)

Lemma real_index_pos : forall A ix, wf A -> 0 <= ix < armas_size A ->
  pos A (ix mod rows A) (ix / rows A) /\
  elems A + armas_real_index A ix = addr A (ix mod rows A) (ix / rows A).
Proof.
  intros A ix (Hr & Hc & Hs) H. unfold armas_size in H.
  assert (0 < rows A) by nia.
  assert (0 <= ix mod rows A < rows A) by (apply Z.mod_pos_bound; lia).
  assert (0 <= ix / rows A < cols A).
  { split. apply Z.div_pos; lia. apply Z.div_lt_upper_bound; lia. }
  split. { split; auto. }
  unfold armas_real_index, addr.
  rewrite Z.quot_div_nonneg, Z.rem_mod_nonneg by lia.
  pose proof (Z.div_mod ix (rows A)).
  destruct (cols A =? 1) eqn:E1; cbn [orb].
  - assert (ix / rows A = 0) by lia. rewrite H4 in *. lia.
  - destruct (step A =? rows A) eqn:E2; [|lia].
    assert (step A = rows A) by lia. rewrite H4. lia.
Qed.

(* sub-views *)

Lemma sub_cell : forall A r c nr nc i j,
  elems (armas_submatrix_unsafe A r c nr nc) +
     j * step (armas_submatrix_unsafe A r c nr nc) + i =
  elems A + (c + j) * step A + (r + i).
Proof. intros; cbn. lia. Qed.

Lemma sub_in : forall A r c nr nc, 0 <= r -> 0 <= c ->
  r + nr <= rows A -> c + nc <= cols A ->
  forall a, cell (armas_submatrix_unsafe A r c nr nc) a <->
    exists i j, r <= i < r + nr /\ c <= j < c + nc /\ a = elems A + j * step A + i.
Proof.
  intros A r c nr nc Hr Hc Hnr Hnc a. split.
  - intros (i & j & (Hi & Hj) & E). cbn in Hi, Hj. rewrite sub_cell in E.
    exists (r + i), (c + j). repeat split; try lia.
  - intros (i & j & Hi & Hj & E). exists (i - r), (j - c). split.
    + split; cbn; lia.
    + rewrite sub_cell. subst. replace (c + (j - c)) with j by lia. lia.
Qed.

Lemma wf_sub : forall A r c nr nc, wf A -> 0 <= nr <= rows A -> 0 <= nc ->
  wf (armas_submatrix_unsafe A r c nr nc).
Proof. intros A r c nr nc (Hr & Hc & Hs); unfold wf; cbn; lia. Qed.

Lemma pairwise_nil : pairwise_disjoint [].
Proof. exact I. Qed.

Lemma disj_sub : forall A r c nr nc r' c' nr' nc', wf A ->
  0 <= r -> 0 <= c -> r + nr <= rows A -> c + nc <= cols A ->
  0 <= r' -> 0 <= c' -> r' + nr' <= rows A -> c' + nc' <= cols A ->
  r + nr <= r' \/ r' + nr' <= r \/ c + nc <= c' \/ c' + nc' <= c ->
  disjoint (armas_submatrix_unsafe A r c nr nc) (armas_submatrix_unsafe A r' c' nr' nc').
Proof.
  intros A r c nr nc r' c' nr' nc' Hwf H1 H2 H3 H4 H5 H6 H7 H8 Hd a Ha Hb.
  apply sub_in in Ha; auto. apply sub_in in Hb; auto.
  destruct Ha as (i & j & Hi & Hj & E), Hb as (i' & j' & Hi' & Hj' & E').
  destruct (pos_inj A i j i' j'); auto; try (split; lia); lia.
Qed.

Lemma cell_iff : forall A a, cell A a <->
  exists i j, 0 <= i < rows A /\ 0 <= j < cols A /\ a = elems A + j * step A + i.
Proof.
  intros; unfold cell, pos; split; intros (i & j & H); exists i, j; tauto.
Qed.

(* views as rectangles of a parent: (r, c, nr, nc) *)
Definition rect (A : view) (q : Z * Z * Z * Z) : view :=
  let '(r, c, nr, nc) := q in armas_submatrix_unsafe A r c nr nc.

Definition inrect (q : Z * Z * Z * Z) (i j : Z) : Prop :=
  let '(r, c, nr, nc) := q in r <= i < r + nr /\ c <= j < c + nc.

Lemma tiles_rects : forall A (qs : list (Z * Z * Z * Z)), wf A ->
  Forall (fun q => let '(r, c, nr, nc) := q in
     0 <= r /\ 0 <= c /\ r + nr <= rows A /\ c + nc <= cols A) qs ->
  (forall i j, pos A i j -> Exists (fun q => inrect q i j) qs) ->
  ForallOrdPairs (fun q q' =>
     let '(r, c, nr, nc) := q in let '(r', c', nr', nc') := q' in
     r + nr <= r' \/ r' + nr' <= r \/ c + nc <= c' \/ c' + nc' <= c) qs ->
  tiles (map (rect A) qs) A.
Proof.
  intros A qs Hwf Hin Hcov Hdis. split.
  - intros a. rewrite Exists_exists. split.
    + intros (i & j & Hp & E). specialize (Hcov i j Hp).
      rewrite Exists_exists in Hcov. destruct Hcov as ([[[r c] nr] nc] & Hq & Hr).
      exists (rect A (r, c, nr, nc)). split. apply in_map; auto.
      rewrite Forall_forall in Hin. specialize (Hin _ Hq). cbn in Hin. cbn [rect].
      apply sub_in; try lia. exists i, j. cbn in Hr. tauto.
    + intros (p & Hp & Hc). apply in_map_iff in Hp.
      destruct Hp as ([[[r c] nr] nc] & <- & Hq). rewrite Forall_forall in Hin.
      specialize (Hin _ Hq). cbn in Hin. cbn [rect] in Hc.
      apply sub_in in Hc; try lia. destruct Hc as (i & j & Hi & Hj & E).
      exists i, j. split; [split; lia | auto].
  - clear Hcov. induction Hdis as [|q qs Hq Hd IH]; cbn [map pairwise_disjoint]; auto.
    inversion Hin; subst. split; auto.
    rewrite Forall_map. rewrite Forall_forall in *. intros q' Hq'.
    specialize (Hq q' Hq'). specialize (H2 q' Hq').
    destruct q as [[[r c] nr] nc], q' as [[[r' c'] nr'] nc']. cbn [rect].
    cbn in H1, H2. apply disj_sub; auto; lia.
Qed.

Ltac find_tile :=
  first [ apply Exists_cons_hd; unfold inrect; lia
        | apply Exists_cons_tl; find_tile ].

(* cut lines r1 <= r2 (rows) and c1 <= c2 (columns) *)
Ltac tile_tac qs r1 r2 c1 c2 :=
  apply (tiles_rects _ qs); [ assumption
  | repeat (apply Forall_cons || apply Forall_nil); lia
  | let i := fresh "i" in let j := fresh "j" in
    intros i j [? ?];
    destruct (Z_lt_dec i r1), (Z_lt_dec i r2), (Z_lt_dec j c1), (Z_lt_dec j c2);
    find_tile
  | repeat (apply FOP_cons || apply FOP_nil || apply Forall_cons || apply Forall_nil); lia ].

(* partitions *)

Lemma part_2x1_tiles : forall A nb d, wf A -> 0 <= nb ->
  forall T B, mat_partition_2x1 A nb d = (T, B) -> tiles [T; B] A.
Proof.
  intros A nb d Hwf Hnb. pose proof Hwf as (Hr & Hc & Hs). unfold mat_partition_2x1.
  set (nb' := if nb >? rows A then rows A else nb).
  assert (0 <= nb' <= rows A) by (unfold nb'; dbool; lia). destruct d; cbv zeta; intros ? ? [= <- <-].
  - tile_tac [(0, 0, nb', cols A); (nb', 0, rows A - nb', cols A)] (nb') (nb') (0) (0).
  - tile_tac [(0, 0, rows A - nb', cols A); (rows A - nb', 0, nb', cols A)] (rows A - nb') (rows A - nb') (0) (0).
Qed.

Lemma repart_2x1_tiles : forall A AT nb d, wf A -> 0 <= nb -> 0 <= rows AT <= rows A ->
  forall B0 B1 B2, mat_repartition_2x1to3x1 AT A nb d = (B0, B1, B2) ->
  tiles [B0; B1; B2] A /\ match d with
  | PBottom => rows B0 = rows AT /\ rows B1 = Z.min nb (rows A - rows AT)
  | PTop => rows B0 + rows B1 = rows AT /\ rows B1 = Z.min nb (rows AT)
  end.
Proof.
  intros A AT nb d Hwf Hnb HT. pose proof Hwf as (Hr & Hc & Hs).
  unfold mat_repartition_2x1to3x1. destruct d.
  - set (nb' := if rows AT <? nb then rows AT else nb).
    assert (0 <= nb' <= rows AT) by (unfold nb'; dbool; lia). cbv zeta. intros ? ? ? [= <- <- <-]. split.
    + tile_tac [(0, 0, rows AT - nb', cols A); (rows AT - nb', 0, nb', cols A);
              (rows AT, 0, rows A - rows AT, cols A)] (rows AT) (rows AT - nb') (0) (0).
    + cbn. unfold nb'. dbool; lia.
  - set (nb' := if nb + rows AT >? rows A then rows A - rows AT else nb).
    assert (0 <= nb' <= rows A - rows AT) by (unfold nb'; dbool; lia). cbv zeta. intros ? ? ? [= <- <- <-]. split.
    + tile_tac [(0, 0, rows AT, cols A); (rows AT, 0, nb', cols A);
              (rows AT + nb', 0, rows A - rows AT - nb', cols A)] (rows AT) (rows AT + nb') (0) (0).
    + cbn. unfold nb'. dbool; lia.
Qed.

Lemma cont_3x1_tiles : forall A B0 B1 d, wf A -> 0 <= rows B0 -> 0 <= rows B1 ->
  rows B0 + rows B1 <= rows A ->
  forall T B, mat_continue_3x1to2x1 B0 B1 A d = (T, B) ->
  tiles [T; B] A /\ rows T = match d with PBottom => rows B0 + rows B1 | PTop => rows B0 end.
Proof.
  intros A B0 B1 d Hwf H0 H1 H2. pose proof Hwf as (Hr & Hc & Hs).
  unfold mat_continue_3x1to2x1. destruct d; cbv zeta; intros ? ? [= <- <-]; split; try reflexivity.
  - tile_tac [(0, 0, rows B0, cols A); (rows B0, 0, rows A - rows B0, cols A)] (rows B0) (rows B0) (0) (0).
  - tile_tac [(0, 0, rows B0 + rows B1, cols A);
       (rows B0 + rows B1, 0, rows A - rows B0 - rows B1, cols A)] (rows B0 + rows B1) (rows B0 + rows B1) (0) (0).
Qed.

Lemma part_1x2_tiles : forall A nb d, wf A -> 0 <= nb ->
  forall Lf R, mat_partition_1x2 A nb d = (Lf, R) -> tiles [Lf; R] A.
Proof.
  intros A nb d Hwf Hnb. pose proof Hwf as (Hr & Hc & Hs). unfold mat_partition_1x2.
  set (nb' := if nb >? cols A then cols A else nb).
  assert (0 <= nb' <= cols A) by (unfold nb'; dbool; lia). destruct d; cbv zeta; intros ? ? [= <- <-].
  - tile_tac [(0, 0, rows A, nb'); (0, nb', rows A, cols A - nb')] (0) (0) (nb') (nb').
  - tile_tac [(0, 0, rows A, cols A - nb'); (0, cols A - nb', rows A, nb')] (0) (0) (cols A - nb') (cols A - nb').
Qed.

Lemma repart_1x2_tiles : forall A AL nb d, wf A -> 0 <= nb -> 0 <= cols AL <= cols A ->
  forall B0 B1 B2, mat_repartition_1x2to1x3 AL A nb d = (B0, B1, B2) ->
  tiles [B0; B1; B2] A /\ match d with
  | PBottom => cols B0 = cols AL /\ cols B1 = Z.min nb (cols A - cols AL)
  | PTop => cols B0 + cols B1 = cols AL /\ cols B1 = Z.min nb (cols AL)
  end.
Proof.
  intros A AL nb d Hwf Hnb HT. pose proof Hwf as (Hr & Hc & Hs).
  unfold mat_repartition_1x2to1x3. destruct d.
  - set (nb' := if nb >? cols AL then cols AL else nb).
    assert (0 <= nb' <= cols AL) by (unfold nb'; dbool; lia). cbv zeta. intros ? ? ? [= <- <- <-]. split.
    + tile_tac [(0, 0, rows A, cols AL - nb'); (0, cols AL - nb', rows A, nb');
              (0, cols AL, rows A, cols A - cols AL)] (0) (0) (cols AL) (cols AL - nb').
    + cbn. unfold nb'. dbool; lia.
  - set (nb' := if cols AL + nb >? cols A then cols A - cols AL else nb).
    assert (0 <= nb' <= cols A - cols AL) by (unfold nb'; dbool; lia). cbv zeta. intros ? ? ? [= <- <- <-]. split.
    + tile_tac [(0, 0, rows A, cols AL); (0, cols AL, rows A, nb');
              (0, cols AL + nb', rows A, cols A - cols AL - nb')] (0) (0) (cols AL) (cols AL + nb').
    + cbn. unfold nb'. dbool; lia.
Qed.

Lemma cont_1x3_tiles : forall A B0 B1 d, wf A -> 0 <= cols B0 -> 0 <= cols B1 ->
  cols B0 + cols B1 <= cols A ->
  forall Lf R, mat_continue_1x3to1x2 B0 B1 A d = (Lf, R) ->
  tiles [Lf; R] A /\ cols Lf = match d with PBottom => cols B0 + cols B1 | PTop => cols B0 end.
Proof.
  intros A B0 B1 d Hwf H0 H1 H2. pose proof Hwf as (Hr & Hc & Hs).
  unfold mat_continue_1x3to1x2. destruct d; cbv zeta; intros ? ? [= <- <-]; split; try reflexivity.
  - tile_tac [(0, 0, rows A, cols B0); (0, cols B0, rows A, cols A - cols B0)] (0) (0) (cols B0) (cols B0).
  - tile_tac [(0, 0, rows A, cols B0 + cols B1);
       (0, cols B0 + cols B1, rows A, cols A - (cols B0 + cols B1))] (0) (0) (cols B0 + cols B1) (cols B0 + cols B1).
Qed.

Lemma part_2x2_tiles : forall A mb nb d, wf A -> 0 <= mb <= rows A -> 0 <= nb <= cols A ->
  tiles (list2 (mat_partition_2x2 A mb nb d)) A.
Proof.
  intros A mb nb d Hwf Hm Hn. pose proof Hwf as (Hr & Hc & Hs). unfold list2, mat_partition_2x2.
  destruct d; cbn [ATL ATR ABL ABR].
  - tile_tac [(0, 0, mb, nb); (0, nb, mb, cols A - nb); (mb, 0, rows A - mb, nb);
             (mb, nb, rows A - mb, cols A - nb)] (mb) (mb) (nb) (nb).
  - tile_tac [(0, 0, rows A - mb, cols A - nb); (0, cols A - nb, rows A - mb, nb);
             (rows A - mb, 0, mb, cols A - nb); (rows A - mb, cols A - nb, mb, nb)] (rows A - mb) (rows A - mb) (cols A - nb) (cols A - nb).
Qed.

Lemma repart_2x2_tiles : forall A TL nb d, wf A -> 0 <= nb ->
  0 <= rows TL <= rows A -> 0 <= cols TL <= cols A ->
  tiles (list3 (mat_repartition_2x2to3x3 TL A nb d)) A.
Proof.
  intros A TL nb d Hwf Hnb HT1 HT2. pose proof Hwf as (Hr & Hc & Hs).
  unfold list3, mat_repartition_2x2to3x3. destruct d.
  - set (nb1 := if nb >? cols TL then cols TL else nb).
    set (nb' := if nb1 >? rows TL then rows TL else nb1).
    assert (0 <= nb' <= rows TL) by (unfold nb', nb1; dbool; lia).
    assert (nb' <= cols TL) by (unfold nb', nb1; dbool; lia).
    cbv zeta. cbn [A00 A01 A02 A10 A11 A12 A20 A21 A22]. clearbody nb'.
    set (kr := rows TL) in *. set (kc := cols TL) in *.
    tile_tac [(0, 0, kr - nb', kc - nb'); (0, kc - nb', kr - nb', nb');
      (0, kc, kr - nb', cols A - kc); (kr - nb', 0, nb', kc - nb');
      (kr - nb', kc - nb', nb', nb'); (kr - nb', kc, nb', cols A - kc);
      (kr, 0, rows A - kr, kc - nb'); (kr, kc - nb', rows A - kr, nb');
      (kr, kc, rows A - kr, cols A - kc)] (kr) (kr - nb') (kc) (kc - nb').
  - set (nb1 := if cols TL + nb >? cols A then cols A - cols TL else nb).
    set (nb' := if rows TL + nb1 >? rows A then rows A - rows TL else nb1).
    assert (0 <= nb' <= rows A - rows TL) by (unfold nb', nb1; dbool; lia).
    assert (nb' <= cols A - cols TL) by (unfold nb', nb1; dbool; lia).
    cbv zeta. cbn [A00 A01 A02 A10 A11 A12 A20 A21 A22]. clearbody nb'.
    set (kr := rows TL) in *. set (kc := cols TL) in *.
    tile_tac [(0, 0, kr, kc); (0, kc, kr, nb'); (0, kc + nb', kr, cols A - kc - nb');
      (kr, 0, nb', kc); (kr, kc, nb', nb'); (kr, kc + nb', nb', cols A - kc - nb');
      (kr + nb', 0, rows A - kr - nb', kc); (kr + nb', kc, rows A - kr - nb', nb');
      (kr + nb', kc + nb', rows A - kr - nb', cols A - kc - nb')] (kr) (kr + nb') (kc) (kc + nb').
Qed.

Lemma cont_3x3_tiles_bottom : forall A B00 B11, wf A ->
  0 <= rows B00 -> 0 <= cols B00 -> 0 <= cols B11 ->
  rows B00 + cols B11 <= rows A -> cols B00 + cols B11 <= cols A ->
  tiles (list2 (mat_continue_3x3to2x2 B00 B11 A PBottom)) A.
Proof.
  intros A B00 B11 Hwf H1 H2 H3 H4 H5. pose proof Hwf as (Hr & Hc & Hs).
  unfold list2, mat_continue_3x3to2x2. cbn [ATL ATR ABL ABR].
  set (kr := rows B00) in *. set (kc := cols B00) in *. set (mb := cols B11) in *.
  tile_tac [(0, 0, kr + mb, kc + mb); (0, kc + mb, kr + mb, cols A - kc - mb);
    (kr + mb, 0, rows A - kr - mb, kc + mb);
    (kr + mb, kc + mb, rows A - kr - mb, cols A - kc - mb)] (kr + mb) (kr + mb) (kc + mb) (kc + mb).
Qed.

(* the three blocks of the continue step towards the origin that the code
   computes correctly, and ABL when it has the right number of columns *)
Lemma cont_3x3_top : forall A B00 B11, wf A ->
  0 <= rows B00 <= rows A -> 0 <= cols B00 <= cols A ->
  let b := mat_continue_3x3to2x2 B00 B11 A PTop in
  tiles [ATL b; ATR b; armas_submatrix_unsafe A (rows B00) 0 (rows A - rows B00) (cols B00); ABR b] A /\
  elems (ABL b) = elems A + rows B00.
Proof.
  intros A B00 B11 Hwf H1 H2. pose proof Hwf as (Hr & Hc & Hs).
  unfold mat_continue_3x3to2x2. cbn [ATL ATR ABL ABR].
  set (kr := rows B00) in *. set (kc := cols B00) in *. split.
  - tile_tac [(0, 0, kr, kc); (0, kc, kr, cols A - kc);
      (kr, 0, rows A - kr, kc); (kr, kc, rows A - kr, cols A - kc)] (kr) (kr) (kc) (kc).
  - cbn. lia.
Qed.
