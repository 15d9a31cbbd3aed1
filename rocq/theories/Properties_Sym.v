(* Properties_Sym.v: C21 symmetric matrix-vector product and rank updates of one triangle.
   Only the selected triangle of A is assumed to be allocated and every access outside of
   allocated memory makes the model fail, so each theorem also says that the other triangle
   is neither read nor written. *)
From Coq Require Import ZArith Lia Bool.
From Verif Require Import Mem MView SpecView PView PSub Hoare MFlags MCopy MNum SpecNum MBlas1 MElem MBlas2
  PUpd PSum PBlas1 PMvec PBlas2 PFrame SpecTrm MTrm PTrm MSym PSym Inst Properties_Copy Properties_Trm.
Local Open Scope Z_scope.
Ltac lia := zlia.

Theorem C21_mvmult_sym : forall T (K : num T), is_ring K -> eqb_ok K ->
  forall fuel blas1min blas2min L m beta y alpha A x flags upper,
  has flags ARMAS_UPPER = upper -> has flags ARMAS_LOWER = negb upper ->
  0 <= blas1min -> 2 <= blas2min -> cols A < Z.of_nat fuel ->
  isvec y -> wf y -> allocated L y -> isvec x -> wf x -> allocated L x -> wf A -> tri_allocated L upper A ->
  disjoint y A -> disjoint y x -> rows A = cols A -> vlen y = cols A -> vlen x = cols A ->
  exists m', armas_mvmult_sym K fuel blas1min blas2min beta y alpha A x flags L m = Some (0, m') /\
    (forall i, 0 <= i < vlen y -> velt m' y i =
       add K (mul K beta (velt m y i)) (mul K alpha (vsum K (vlen x) (fun j => mul K (sym upper m A i j) (velt m x j))))) /\
    only_changes y m m'.
Proof.
  intros T K HR HE fuel blas1min blas2min L m beta y alpha A x flags upper Hu Hl Hb1 Hb2 Hf Vy Wy Ly Vx Wx Lx WA LA DA DX Sq Ey Ex.
  apply (mvmult_sym_spec K HR HE); auto; split; auto.
Qed.
Print Assumptions C21_mvmult_sym.

Theorem C21_mvmult_sym_mismatch : forall T (K : num T) fuel blas1min blas2min L m beta y alpha A x flags,
  0 < rows A -> 0 < cols A -> 0 < vlen x -> 0 < vlen y ->
  ~ isvec x \/ ~ isvec y \/ rows A <> cols A \/ vlen x <> cols A \/ vlen y <> cols A ->
  exists code, armas_mvmult_sym K fuel blas1min blas2min beta y alpha A x flags L m = Some (code, m) /\ code < 0.
Proof.
  intros T K fuel blas1min blas2min L m beta y alpha A x flags Hr Hc Hx Hy H. unfold armas_mvmult_sym.
  rewrite <- !isvector_isvec in H. change (armas_size x) with (vlen x). change (armas_size y) with (vlen y).
  replace (armas_size A =? 0) with false by (unfold armas_size; nia).
  replace (vlen x =? 0) with false by lia. replace (vlen y =? 0) with false by lia. cbn [orb].
  destruct (armas_isvector x); cbn [negb]; [|eexists; split; [reflexivity|unfold ARMAS_ENEED_VECTOR; lia]].
  destruct (armas_isvector y); cbn [negb]; [|eexists; split; [reflexivity|unfold ARMAS_ENEED_VECTOR; lia]].
  destruct H as [H|[H|H]]; [congruence|congruence|].
  replace ((cols A =? rows A) && (vlen x =? vlen y) && (vlen x =? cols A)) with false by lia.
  eexists; split; [reflexivity|unfold ARMAS_ESIZE; lia].
Qed.
Print Assumptions C21_mvmult_sym_mismatch.

(* general rank-1 update of one triangle (or trapezium, unless the recursive variant is selected) *)
Theorem C21_mvupdate_trm : forall T (K : num T), is_ring K ->
  forall fuel blas2min optflags L m beta A alpha x y flags,
  let upper := has flags ARMAS_UPPER in
  has flags ARMAS_UPPER && has flags ARMAS_LOWER = false ->
  (Z.land optflags (Z.lor ARMAS_ONAIVE ARMAS_ORECURSIVE) = ARMAS_ORECURSIVE ->
     blas2min <= 0 \/ rows A < blas2min \/ cols A < blas2min \/ 2 <= blas2min /\ rows A = cols A) ->
  rows A < Z.of_nat fuel ->
  isvec y -> wf y -> allocated L y -> isvec x -> wf x -> allocated L x -> wf A -> tri_allocated L upper A ->
  disjoint A x -> disjoint A y -> vlen x = rows A -> vlen y = cols A ->
  exists m', armas_mvupdate_trm K fuel blas2min optflags beta A alpha x y flags L m = Some (0, m') /\
    (forall i j, pos A i j -> intri upper i j ->
       elt m' A i j = add K (mul K beta (elt m A i j)) (mul K alpha (mul K (velt m x i) (velt m y j)))) /\
    only_changes_tri upper A m m'.
Proof.
  intros T K HR fuel blas2min optflags L m beta A alpha x y flags upper Hok Hm Hf Vy Wy Ly Vx Wx Lx WA LA DX DY Ex Ey.
  apply (mvupdate_trm_spec K HR); auto; try (split; auto). intros E. apply Hm. apply Z.eqb_eq. exact E.
Qed.
Print Assumptions C21_mvupdate_trm.

Theorem C21_mvupdate_trm_mismatch : forall T (K : num T) fuel blas2min optflags L m beta A alpha x y flags,
  0 < rows A -> 0 < cols A -> 0 < vlen x -> 0 < vlen y ->
  ~ isvec x \/ ~ isvec y \/ vlen x <> rows A \/ vlen y <> cols A ->
  exists code, armas_mvupdate_trm K fuel blas2min optflags beta A alpha x y flags L m = Some (code, m) /\ code < 0.
Proof.
  intros T K fuel blas2min optflags L m beta A alpha x y flags Hr Hc Hx Hy H. unfold armas_mvupdate_trm.
  rewrite <- !isvector_isvec in H. change (armas_size x) with (vlen x). change (armas_size y) with (vlen y).
  replace (armas_size A =? 0) with false by (unfold armas_size; nia).
  replace (vlen x =? 0) with false by lia. replace (vlen y =? 0) with false by lia. cbn [orb].
  destruct (armas_isvector x); cbn [negb]; [|eexists; split; [reflexivity|unfold ARMAS_ENEED_VECTOR; lia]].
  destruct (armas_isvector y); cbn [negb]; [|eexists; split; [reflexivity|unfold ARMAS_ENEED_VECTOR; lia]].
  destruct H as [H|[H|H]]; [congruence|congruence|].
  replace (negb (cols A =? vlen y) || negb (rows A =? vlen x)) with true by lia.
  eexists; split; [reflexivity|unfold ARMAS_ESIZE; lia].
Qed.
Print Assumptions C21_mvupdate_trm_mismatch.

(* symmetric rank-1 update *)
Theorem C21_mvupdate_sym : forall T (K : num T), is_ring K ->
  forall fuel blas2min optflags L m beta A alpha x flags,
  let upper := has flags ARMAS_UPPER in
  has flags ARMAS_UPPER && has flags ARMAS_LOWER = false ->
  (Z.land optflags (Z.lor ARMAS_ONAIVE ARMAS_ORECURSIVE) = ARMAS_ORECURSIVE -> blas2min <> 1) ->
  rows A < Z.of_nat fuel ->
  isvec x -> wf x -> allocated L x -> wf A -> tri_allocated L upper A ->
  disjoint A x -> rows A = cols A -> vlen x = cols A ->
  exists m', armas_mvupdate_sym K fuel blas2min optflags beta A alpha x flags L m = Some (0, m') /\
    (forall i j, pos A i j -> intri upper i j ->
       elt m' A i j = add K (mul K beta (elt m A i j)) (mul K alpha (mul K (velt m x i) (velt m x j)))) /\
    only_changes_tri upper A m m'.
Proof.
  intros T K HR fuel blas2min optflags L m beta A alpha x flags upper Hok Hm Hf Vx Wx Lx WA LA DX Sq Ex.
  apply C21_mvupdate_trm; auto; try lia. intros E. specialize (Hm E). lia.
Qed.
Print Assumptions C21_mvupdate_sym.

(* symmetric rank-2 update *)
Theorem C21_mvupdate2_sym : forall T (K : num T), is_ring K ->
  forall fuel blas2min optflags L m beta A alpha x y flags,
  let upper := has flags ARMAS_UPPER in
  has flags ARMAS_UPPER && has flags ARMAS_LOWER = false ->
  2 <= blas2min \/ optflags = ARMAS_ONAIVE ->
  rows A < Z.of_nat fuel ->
  isvec y -> wf y -> allocated L y -> isvec x -> wf x -> allocated L x -> wf A -> tri_allocated L upper A ->
  disjoint A x -> disjoint A y -> rows A = cols A -> vlen x = cols A -> vlen y = cols A ->
  exists m', armas_mvupdate2_sym K fuel blas2min optflags beta A alpha x y flags L m = Some (0, m') /\
    (forall i j, pos A i j -> intri upper i j ->
       elt m' A i j = add K (mul K beta (elt m A i j))
         (mul K alpha (add K (mul K (velt m x i) (velt m y j)) (mul K (velt m y i) (velt m x j))))) /\
    only_changes_tri upper A m m'.
Proof.
  intros T K HR fuel blas2min optflags L m beta A alpha x y flags upper Hok Hm Hf Vy Wy Ly Vx Wx Lx WA LA DX DY Sq Ex Ey.
  apply (mvupdate2_sym_spec K HR); auto; try (split; auto).
Qed.
Print Assumptions C21_mvupdate2_sym.

(* ---- where the interface does not keep its promise ---- *)

(* threshold below 2: the recursion of the product never ends, whatever the options *)
Lemma symv_diverges : forall T (K : num T) fuel b1 b2 L flags alpha minsz, minsz <= 1 ->
  forall f Y A X m, isvec Y -> wf Y -> isvec X -> wf X -> 0 < vlen Y -> vlen X = vlen Y ->
  symv_recursive K fuel b1 b2 f Y alpha A X flags minsz L m = None.
Proof.
  intros T K fuel b1 b2 L flags alpha minsz Hm. induction f as [|f IH]; intros Y A X m VY WY VX WX Hy Hx; [reflexivity|].
  cbn [symv_recursive]. change (armas_size Y) with (vlen Y). replace (vlen Y <? minsz) with false by lia.
  destruct (quot2 (vlen Y) ltac:(lia)) as (Eq & Hn & _). assert (H2 : vlen Y / 2 < vlen Y) by (apply Z.div_lt; lia).
  rewrite Eq. cbv zeta. rewrite !vec_part_eq by (auto; lia).
  destruct (subvec_unsafe_vshows Y (vlen Y / 2) (vlen Y - vlen Y / 2)) as (V1 & V2 & _ & _ & V3); auto; try lia.
  destruct (subvec_unsafe_vshows X (vlen Y / 2) (vlen X - vlen Y / 2)) as (U1 & U2 & _ & _ & U3); auto; try lia.
  assert (R : forall A m, symv_recursive K fuel b1 b2 f (armas_subvector_unsafe Y (vlen Y / 2) (vlen Y - vlen Y / 2)) alpha A
    (armas_subvector_unsafe X (vlen Y / 2) (vlen X - vlen Y / 2)) flags minsz L m = None) by (intros; apply IH; auto; lia).
  destruct (has flags ARMAS_UPPER);
    repeat (rewrite ?run_bind, ?R; try reflexivity;
      match goal with |- context [match run ?c L ?m with _ => _ end] => destruct (run c L m) as [[[] ?]|] end).
Qed.

Theorem C21_threshold_one_refuted : forall T (K : num T) fuel blas1min blas2min L m beta y alpha A x flags, blas2min <= 1 ->
  isvec y -> wf y -> isvec x -> wf x -> 0 < cols A -> rows A = cols A -> vlen y = cols A -> vlen x = cols A ->
  armas_mvmult_sym K fuel blas1min blas2min beta y alpha A x flags L m = None.
Proof.
  intros T K fuel blas1min blas2min L m beta y alpha A x flags Hb Vy Wy Vx Wx Hc Sq Ey Ex. unfold armas_mvmult_sym.
  change (armas_size x) with (vlen x). change (armas_size y) with (vlen y).
  replace (armas_size A =? 0) with false by (unfold armas_size; nia).
  replace (vlen x =? 0) with false by lia. replace (vlen y =? 0) with false by lia. cbn [orb].
  apply isvector_isvec in Vx as E1. apply isvector_isvec in Vy as E2. rewrite E1, E2. cbn [negb].
  replace ((cols A =? rows A) && (vlen x =? vlen y) && (vlen x =? cols A)) with true by lia. cbn [negb].
  rewrite !run_bind. destruct (when _ _ L m) as [[[] m1]|]; auto.
  rewrite run_bind, symv_diverges; auto; lia.
Qed.
Print Assumptions C21_threshold_one_refuted.

(* a 5x5 matrix with its upper triangle allocated only *)
Definition sy_L (a : Z) : bool :=
  (100 <=? a) && (a <? 200) ||
  (200 <=? a) && (a <? 230) && ((a - 200) mod 6 <=? (a - 200) / 6).
Definition sy_y : view := mkview 150 7 5 1.

Lemma sy_ok : isvec tr_x /\ wf tr_x /\ allocated sy_L tr_x /\ isvec sy_y /\ wf sy_y /\ allocated sy_L sy_y /\
  wf tr_A /\ tri_allocated sy_L true tr_A /\ disjoint sy_y tr_A /\ disjoint sy_y tr_x /\ disjoint tr_A tr_x /\ disjoint tr_A sy_y.
Proof.
  assert (HA : forall a, cell tr_A a -> 200 <= a < 230).
  { intros a (i & j & (Hi & Hj) & ->). unfold tr_A in *; cbn [elems step rows cols] in *. lia. }
  assert (Hx : forall a, cell tr_x a -> 100 <= a < 115).
  { intros a (i & j & (Hi & Hj) & ->). unfold tr_x in *; cbn [elems step rows cols] in *. lia. }
  assert (Hy : forall a, cell sy_y a -> 150 <= a < 157).
  { intros a (i & j & (Hi & Hj) & ->). unfold sy_y in *; cbn [elems step rows cols] in *. lia. }
  split; [left; reflexivity|]. split; [unfold wf; cbn; lia|].
  split; [intros a Ha; apply Hx in Ha; unfold sy_L; replace (100 <=? a) with true by lia; replace (a <? 200) with true by lia; reflexivity|].
  split; [right; reflexivity|]. split; [unfold wf; cbn; lia|].
  split; [intros a Ha; apply Hy in Ha; unfold sy_L; replace (100 <=? a) with true by lia; replace (a <? 200) with true by lia; reflexivity|].
  split; [unfold wf; cbn; lia|].
  split; [|repeat split; intros a Ha Hb; try apply HA in Ha; try apply HA in Hb; try apply Hx in Ha; try apply Hx in Hb; try apply Hy in Ha; try apply Hy in Hb; lia].
  intros a (i & j & (Hi & Hj) & Hin & ->). cbn [intri] in Hin. unfold tr_A in *; cbn [elems step rows cols] in *. unfold sy_L.
  replace (200 + j * 6 + i - 200) with (i + j * 6) by lia.
  rewrite Z.mod_add, Z.div_add by lia. rewrite Z.mod_small, Z.div_small by lia.
  replace (200 <=? 200 + j * 6 + i) with true by lia. replace (200 + j * 6 + i <? 230) with true by lia.
  replace (i <=? 0 + j) with true by lia. rewrite orb_true_r. reflexivity.
Qed.

(* neither UPPER nor LOWER given: small matrices are taken as upper, the off-diagonal
   blocks of large ones as lower *)
Theorem C21_no_triangle_flag_refuted : exists A x y m L m1 m2,
  armas_mvmult_sym Znum 10 0 9 0 y 1 A x 0 L m = Some (0, m1) /\
  armas_mvmult_sym Znum 10 0 2 0 y 1 A x 0 L m = Some (0, m2) /\ velt m1 y 0 <> velt m2 y 0.
Proof.
  exists (mkview 200 2 2 2), (mkview 100 2 2 1), (mkview 110 2 2 1), (fun a => a mod 11), cp_L.
  eexists. eexists. split; [vm_compute; reflexivity|]. split; [vm_compute; reflexivity|]. vm_compute. discriminate.
Qed.
Print Assumptions C21_no_triangle_flag_refuted.

(* the rank-2 update does not check the vectors against the matrix: vectors that are
   too short are accepted and read behind their end *)
Theorem C21_update2_size_refuted : exists A x y L, wf A /\ allocated L A /\ isvec x /\ wf x /\ allocated L x /\
  isvec y /\ wf y /\ allocated L y /\ disjoint A x /\ disjoint A y /\ rows A = cols A /\ 0 < vlen x < cols A /\ vlen y = vlen x /\
  (forall m, armas_mvupdate2_sym Znum 10 9 0 1 A 1 x y ARMAS_LOWER L m = None).
Proof.
  exists (mkview 200 3 3 3), (mkview 100 1 1 1), (mkview 110 1 1 1),
    (fun a => (200 <=? a) && (a <? 209) || (a =? 100) || (a =? 110)).
  assert (HA : forall a, cell (mkview 200 3 3 3) a -> 200 <= a < 209).
  { intros a (i & j & (Hi & Hj) & ->). cbn [elems step rows cols] in *. lia. }
  assert (Hx : forall e a, cell (mkview e 1 1 1) a -> a = e).
  { intros e a (i & j & (Hi & Hj) & ->). cbn [elems step rows cols] in *. lia. }
  split; [unfold wf; cbn; lia|].
  split; [intros a Ha; apply HA in Ha; cbv beta; replace (200 <=? a) with true by lia; replace (a <? 209) with true by lia; reflexivity|].
  split; [left; reflexivity|]. split; [unfold wf; cbn; lia|].
  split; [intros a Ha; apply Hx in Ha; subst; reflexivity|].
  split; [left; reflexivity|]. split; [unfold wf; cbn; lia|].
  split; [intros a Ha; apply Hx in Ha; subst; reflexivity|].
  split; [intros a Ha Hb; apply HA in Ha; apply Hx in Hb; lia|].
  split; [intros a Ha Hb; apply HA in Ha; apply Hx in Hb; lia|].
  split; [reflexivity|]. split; [cbn; lia|]. split; [reflexivity|]. intros m. reflexivity.
Qed.
Print Assumptions C21_update2_size_refuted.

(* recursive rank-1 update of a 4 x 2 lower trapezium: element (1,1) is left out *)
Theorem C21_trapezoid_recursive_refuted : exists A x y m L m', wf A /\ allocated L A /\ disjoint x A /\ disjoint y A /\
  isvec x /\ isvec y /\ vlen x = rows A /\ vlen y = cols A /\
  armas_mvupdate_trm Znum 10 2 ARMAS_ORECURSIVE 1 A 1 x y ARMAS_LOWER L m = Some (0, m') /\
  elt m' A 1 1 <> elt m A 1 1 + velt m x 1 * velt m y 1.
Proof.
  exists (mkview 200 4 4 2), (mkview 100 4 4 1), (mkview 110 2 2 1), (fun _ => 1), cp_L. eexists.
  destruct (cp_ok 100 4 4 1 200 4 4 2) as (H1 & H2 & H3 & H4 & H5); try lia.
  destruct (cp_ok 110 2 2 1 200 4 4 2) as (H6 & H7 & H8 & H9 & H10); try lia.
  repeat split; try assumption; try apply H2; try reflexivity; try (right; reflexivity).
  vm_compute. discriminate.
Qed.
Print Assumptions C21_trapezoid_recursive_refuted.

Example C21_nonvacuous :
  (exists m', armas_mvmult_sym Znum 10 0 2 3 sy_y 2 tr_A tr_x ARMAS_UPPER sy_L (fun a => a mod 7) = Some (0, m') /\
     velt m' sy_y 2 = 3 * 5 + 2 * (2 * 2 + 3 * 5 + 4 * 1 + 3 * 4 + 2 * 0)) /\
  (exists m', armas_mvupdate_sym Znum 10 2 ARMAS_ORECURSIVE 3 tr_A 2 tr_x ARMAS_UPPER sy_L (fun a => a mod 7) = Some (0, m') /\
     elt m' tr_A 1 3 = 3 * 2 + 2 * (5 * 4)) /\
  (exists m', armas_mvupdate2_sym Znum 10 2 0 3 tr_A 2 tr_x sy_y ARMAS_UPPER sy_L (fun a => a mod 7) = Some (0, m') /\
     elt m' tr_A 1 3 = 3 * 2 + 2 * (5 * 6 + 4 * 4)).
Proof.
  destruct sy_ok as (H1 & H2 & H3 & H4 & H5 & H6 & H7 & H8 & H9 & H10 & H11 & H12). split; [|split].
  - destruct (C21_mvmult_sym Z Znum Z_ring Z_eqb 10 0 2 sy_L (fun a => a mod 7) 3 sy_y 2 tr_A tr_x ARMAS_UPPER true)
      as (m' & E & H & _); auto; try reflexivity; try lia.
    exists m'. split; [exact E|]. rewrite H by (cbn; lia). reflexivity.
  - destruct (C21_mvupdate_sym Z Znum Z_ring 10 2 ARMAS_ORECURSIVE sy_L (fun a => a mod 7) 3 tr_A 2 tr_x ARMAS_UPPER)
      as (m' & E & H & _); auto; try reflexivity; try lia.
    exists m'. split; [exact E|]. rewrite H by (try split; cbn; lia). reflexivity.
  - destruct (C21_mvupdate2_sym Z Znum Z_ring 10 2 0 sy_L (fun a => a mod 7) 3 tr_A 2 tr_x sy_y ARMAS_UPPER)
      as (m' & E & H & _); auto; try reflexivity; try lia.
    exists m'. split; [exact E|]. rewrite H by (try split; cbn; lia). reflexivity.
Qed.
