(* Properties_Blas2.v: C19 general matrix-vector product, C20 rank-one update. *)
From Coq Require Import ZArith Lia Bool.
From Verif Require Import Mem MView SpecView PView PSub Hoare MFlags MCopy MNum SpecNum MBlas1 MElem MBlas2
  PUpd PSum PBlas1 PMvec PBlas2 Inst Properties_Copy.
Local Open Scope Z_scope.

(* ---- C19 ---- *)

Theorem C19_mvmult : forall T (K : num T), is_ring K -> eqb_ok K ->
  forall fuel blas2min optflags L m beta y alpha A x flags,
  let trans := has flags ARMAS_TRANS in
  has flags ARMAS_ABSA = false ->
  blas2min = 0 \/ 2 <= blas2min \/ has optflags ARMAS_ONAIVE = true ->
  vlen y < Z.of_nat fuel ->
  isvec y -> wf y -> allocated L y -> isvec x -> wf x -> allocated L x -> wf A -> allocated L A ->
  disjoint y A -> disjoint y x -> 0 < rows A -> 0 < cols A ->
  vlen y = (if trans then cols A else rows A) -> vlen x = (if trans then rows A else cols A) ->
  exists m', armas_mvmult K fuel blas2min optflags beta y alpha A x flags L m = Some (0, m') /\
    (forall k, 0 <= k < vlen y -> velt m' y k =
       add K (mul K beta (velt m y k))
         (mul K alpha (vsum K (vlen x) (fun j =>
            mul K (if trans then elt m A j k else elt m A k j) (velt m x j))))) /\
    only_changes y m m'.
Proof.
  intros T K HR HE fuel blas2min optflags L m beta y alpha A x flags trans. intros.
  apply (mvmult_spec K HR); auto. unfold gsize. fold trans. destruct trans; auto.
Qed.
Print Assumptions C19_mvmult.

(* with ABS and TRANS the absolute values are used *)
Theorem C19_mvmult_abs_trans : forall T (K : num T), is_ring K -> eqb_ok K ->
  (forall a b, abs K (mul K a b) = mul K (abs K a) (abs K b)) ->
  forall fuel blas2min L m y alpha A x flags,
  has flags ARMAS_ABSA = true -> has flags ARMAS_TRANS = true ->
  isvec y -> wf y -> allocated L y -> isvec x -> wf x -> allocated L x -> wf A -> allocated L A ->
  disjoint y A -> disjoint y x -> 0 < rows A -> 0 < cols A ->
  vlen y = cols A -> vlen x = rows A ->
  exists m', armas_mvmult K fuel blas2min ARMAS_ONAIVE (one K) y alpha A x flags L m = Some (0, m') /\
    (forall k, 0 <= k < vlen y -> velt m' y k =
       add K (velt m y k)
         (mul K alpha (vsum K (vlen x) (fun j => mul K (abs K (elt m A j k)) (abs K (velt m x j)))))) /\
    only_changes y m m'.
Proof.
  intros T K HR HE Habs fuel blas2min L m y alpha A x flags Ha Ht Vy Wy Ly Vx Wx Lx WA LA DA DX HrA HcA Ey Ex.
  assert (W : wp (armas_mvmult K fuel blas2min ARMAS_ONAIVE (one K) y alpha A x flags) L m (fun r m' => r = 0 /\
    (forall k, 0 <= k < vlen y -> velt m' y k =
       add K (velt m y k)
         (mul K alpha (vsum K (vlen x) (fun j => mul K (abs K (elt m A j k)) (abs K (velt m x j)))))) /\
    only_changes y m m')).
  { unfold armas_mvmult. change (armas_size x) with (vlen x). change (armas_size y) with (vlen y).
    replace (armas_size A =? 0) with false by (unfold armas_size; nia).
    replace (vlen x =? 0) with false by lia. replace (vlen y =? 0) with false by lia. cbn [orb].
    apply isvector_isvec in Vx as E1. apply isvector_isvec in Vy as E2. rewrite E1, E2. cbn [andb negb].
    rewrite <- PCopy.has_trans, Ht, Ey, Ex, !Z.eqb_refl. cbn [andb negb].
    assert (Hone : eqb K (one K) (one K) = true) by (apply HE; reflexivity). rewrite Hone. cbn [negb].
    wbind. unfold when. apply wp_ret. change (has ARMAS_ONAIVE ARMAS_ONAIVE) with true. cbv iota.
    wbind. unfold gemv_unb. rewrite Ha. unfold gemv_unb_abs. rewrite Ht.
    apply (gemv_dots_wp K HR L y A x); auto.
    intros m' Hu. apply wp_ret. split; [auto|]. split.
    - intros k Hk. rewrite velt_vad, (upd_new _ _ _ _ _ k Hu) by (unfold vdom; lia). reflexivity.
    - eapply vupd_only; eauto. }
  destruct W as (r & m' & E & -> & H1 & H2). eauto.
Qed.
Print Assumptions C19_mvmult_abs_trans.

(* operands that do not fit: error, memory untouched *)
Theorem C19_mvmult_mismatch : forall T (K : num T) fuel blas2min optflags L m beta y alpha A x flags,
  0 < rows A -> 0 < cols A -> 0 < vlen x -> 0 < vlen y ->
  ~ isvec x \/ ~ isvec y \/
  (if has flags ARMAS_TRANS then cols A <> vlen y \/ rows A <> vlen x else rows A <> vlen y \/ cols A <> vlen x) ->
  exists code, armas_mvmult K fuel blas2min optflags beta y alpha A x flags L m = Some (code, m) /\ code < 0.
Proof.
  intros T K fuel blas2min optflags L m beta y alpha A x flags Hr Hc Hx Hy H. unfold armas_mvmult.
  rewrite <- !isvector_isvec in H.
  change (armas_size x) with (vlen x). change (armas_size y) with (vlen y).
  replace (armas_size A =? 0) with false by (unfold armas_size; nia).
  replace (vlen x =? 0) with false by lia. replace (vlen y =? 0) with false by lia. cbn [orb].
  destruct (armas_isvector x), (armas_isvector y); cbn [andb negb];
    try (eexists; split; [reflexivity|unfold ARMAS_ENEED_VECTOR; lia]).
  rewrite <- PCopy.has_trans. cbv zeta. destruct H as [H|[H|H]]; [congruence|congruence|].
  replace (if has flags ARMAS_TRANS then _ else _) with false.
  - cbn [negb]. eexists; split; [reflexivity|unfold ARMAS_ESIZE; lia].
  - destruct (has flags ARMAS_TRANS); symmetry; apply andb_false_iff; rewrite !Z.eqb_neq; lia.
Qed.
Print Assumptions C19_mvmult_mismatch.

(* an empty product leaves y as it is, for any beta *)
Theorem C19_empty_refuted : exists y A x L m,
  isvec y /\ wf y /\ allocated L y /\ isvec x /\ wf x /\ wf A /\ vlen y = rows A /\ vlen x = cols A /\
  forall fuel blas2min optflags,
  exists m', armas_mvmult Znum fuel blas2min optflags 2 y 1 A x 0 L m = Some (0, m') /\
    ~ (forall k, 0 <= k < vlen y -> velt m' y k = 2 * velt m y k + 1 * 0).
Proof.
  exists (mkview 100 3 3 1), (mkview 200 3 3 0), (mkview 300 1 0 1), cp_L, (fun _ => 1).
  repeat split; try (unfold isvec; cbn; lia).
  - apply (cp_ok 100 3 3 1 200 3 3 1); lia.
  - intros. eexists. split; [reflexivity|]. intros H. specialize (H 0 ltac:(cbn; lia)). vm_compute in H. discriminate.
Qed.
Print Assumptions C19_empty_refuted.

(* with ABS and without TRANS the first element is left out and the one behind
   the last is written *)
Theorem C19_abs_refuted : exists y A x L m,
  isvec y /\ wf y /\ allocated L y /\ isvec x /\ wf x /\ allocated L x /\ wf A /\ allocated L A /\
  disjoint y A /\ disjoint y x /\ vlen y = rows A /\ vlen x = cols A /\
  exists m', armas_mvmult Znum 10 256 0 1 y 1 A x ARMAS_ABSA L m = Some (0, m') /\
    velt m' y 0 <> velt m y 0 + vsum Znum 1 (fun j => Z.abs (elt m A 0 j) * Z.abs (velt m x j)) /\
    ~ only_changes y m m'.
Proof.
  exists (mkview 100 1 1 1), (mkview 200 1 1 1), (mkview 300 1 1 1), cp_L, (fun _ => 1).
  destruct (cp_ok 100 1 1 1 200 1 1 1) as (_ & _ & H3 & H4 & H5); try lia.
  destruct (cp_ok 100 1 1 1 300 1 1 1) as (_ & _ & _ & H6 & H7); try lia.
  repeat split; try assumption; try (unfold isvec; cbn; lia).
  eexists. split; [vm_compute; reflexivity|]. split.
  - vm_compute. discriminate.
  - intros Ho. specialize (Ho 101). assert (~ cell (mkview 100 1 1 1) 101) as Hc.
    { intros (i & j & (Hi & Hj) & E). cbn [rows cols elems step] in *. lia. }
    specialize (Ho Hc). vm_compute in Ho. discriminate.
Qed.
Print Assumptions C19_abs_refuted.

(* threshold 1: the recursion never ends, whatever the (non-empty) operands *)
Lemma gemv_diverges : forall T (K : num T) flags alpha L fuel Y A X m,
  isvec Y -> wf Y -> isvec X -> wf X -> 0 < vlen Y -> 0 < vlen X ->
  gemv_recursive K fuel Y alpha A X flags 1 L m = None.
Proof.
  intros T K flags alpha L. induction fuel as [|fuel IH]; intros Y A X m VY WY VX WX HY HX; [reflexivity|].
  cbn [gemv_recursive]. change (armas_size Y) with (vlen Y). change (armas_size X) with (vlen X).
  replace ((1 =? 0) || (vlen Y <? 1) || (vlen X <? 1)) with false by lia.
  destruct (quot2 (vlen Y) ltac:(lia)) as (EqY & HnY & _). destruct (quot2 (vlen X) ltac:(lia)) as (EqX & HnX & _).
  assert (HnY' : vlen Y / 2 < vlen Y) by (apply Z.div_lt; lia).
  assert (HnX' : vlen X / 2 < vlen X) by (apply Z.div_lt; lia).
  rewrite EqY, EqX. cbv zeta. rewrite !vec_part_eq by (auto; lia).
  destruct (subvec_unsafe_vshows Y (vlen Y / 2) (vlen Y - vlen Y / 2)) as (V1 & V2 & _ & _ & V3); auto; try lia.
  destruct (subvec_unsafe_vshows X (vlen X / 2) (vlen X - vlen X / 2)) as (U1 & U2 & _ & _ & U3); auto; try lia.
  rewrite !run_bind. rewrite ?run_bind. match goal with |- match ?c with _ => _ end = _ => destruct c as [[? m1]|]; auto end. rewrite ?run_bind.
  rewrite ?run_bind. match goal with |- match ?c with _ => _ end = _ => destruct c as [[? m2]|]; auto end. rewrite ?run_bind.
  apply IH; auto; lia.
Qed.

Theorem C19_threshold_one_refuted : forall T (K : num T) fuel optflags L m beta y alpha A x flags,
  has optflags ARMAS_ONAIVE = false -> isvec y -> wf y -> isvec x -> wf x -> 0 < rows A -> 0 < cols A ->
  vlen y = (if has flags ARMAS_TRANS then cols A else rows A) ->
  vlen x = (if has flags ARMAS_TRANS then rows A else cols A) ->
  armas_mvmult K fuel 1 optflags beta y alpha A x flags L m = None.
Proof.
  intros T K fuel optflags L m beta y alpha A x flags Ho Vy Wy Vx Wx Hr Hc Ey Ex. unfold armas_mvmult.
  change (armas_size x) with (vlen x). change (armas_size y) with (vlen y).
  assert (Hy : 0 < vlen y) by (destruct (has flags ARMAS_TRANS); lia).
  assert (Hx : 0 < vlen x) by (destruct (has flags ARMAS_TRANS); lia).
  replace (armas_size A =? 0) with false by (unfold armas_size; nia).
  replace (vlen x =? 0) with false by lia. replace (vlen y =? 0) with false by lia. cbn [orb].
  apply isvector_isvec in Vx as E1. apply isvector_isvec in Vy as E2. rewrite E1, E2. cbn [andb negb].
  rewrite <- PCopy.has_trans, Ho. cbv zeta.
  replace (if has flags ARMAS_TRANS then (cols A =? vlen y) && (rows A =? vlen x) else (rows A =? vlen y) && (cols A =? vlen x))
    with true by (destruct (has flags ARMAS_TRANS); lia). cbn [negb].
  rewrite !run_bind. rewrite ?run_bind. match goal with |- match ?c with _ => _ end = _ => destruct c as [[? m1]|]; auto end. rewrite ?run_bind.
  rewrite gemv_diverges; auto.
Qed.
Print Assumptions C19_threshold_one_refuted.

(* a 3 x 2 matrix, a strided row and a column, recursion threshold 2 *)
Definition b2_A : view := mkview 100 4 3 2.
Definition b2_x : view := mkview 300 3 1 2.
Definition b2_y : view := mkview 400 5 3 1.
Lemma b2_ok : isvec b2_y /\ wf b2_y /\ allocated cp_L b2_y /\ isvec b2_x /\ wf b2_x /\ allocated cp_L b2_x /\
  wf b2_A /\ allocated cp_L b2_A /\ disjoint b2_y b2_A /\ disjoint b2_y b2_x.
Proof.
  destruct (cp_ok 100 4 3 2 400 5 3 1) as (H1 & H2 & H3 & H4 & H5); try lia.
  destruct (cp_ok 300 3 1 2 400 5 3 1) as (H6 & _ & H8 & _ & H10); try lia.
  assert (D : forall A B, disjoint A B -> disjoint B A) by (intros A B H a Ha Hb; apply (H a); assumption).
  repeat split; try assumption; try (apply D; assumption); try (unfold isvec, b2_y, b2_x; cbn; lia).
Qed.

Example C19_nonvacuous : exists m',
  armas_mvmult Znum 10 2 0 2 b2_y 3 b2_A b2_x 0 cp_L (fun a => a mod 7) = Some (0, m') /\
  velt m' b2_y 0 = 2 * 1 + 3 * (2 * 6 + 6 * 2) /\
  velt m' b2_y 1 = 2 * 2 + 3 * (3 * 6 + 0 * 2) /\
  velt m' b2_y 2 = 2 * 3 + 3 * (4 * 6 + 1 * 2).
Proof.
  destruct b2_ok as (H1 & H2 & H3 & H4 & H5 & H6 & H7 & H8 & H9 & H10).
  destruct (C19_mvmult Z Znum Z_ring Z_eqb 10 2 0 cp_L (fun a => a mod 7) 2 b2_y 3 b2_A b2_x 0)
    as (m' & E & H & _); auto; try reflexivity; try (right; left; lia).
  exists m'. split; [exact E|]. rewrite !H by (cbn; lia). repeat split; reflexivity.
Qed.

(* ---- C20 ---- *)

Theorem C20_mvupdate : forall T (K : num T), is_ring K ->
  forall fuel blas2min optflags L m beta A alpha x y,
  2 <= blas2min \/ optflags = ARMAS_ONAIVE ->
  rows A < Z.of_nat fuel ->
  isvec y -> wf y -> allocated L y -> isvec x -> wf x -> allocated L x -> wf A -> allocated L A ->
  disjoint A x -> disjoint A y -> vlen x = rows A -> vlen y = cols A ->
  exists m', armas_mvupdate K fuel blas2min optflags beta A alpha x y L m = Some (0, m') /\
    (forall i j, pos A i j -> elt m' A i j =
       add K (mul K beta (elt m A i j)) (mul K alpha (mul K (velt m x i) (velt m y j)))) /\
    only_changes A m m'.
Proof. intros T K HR. apply (mvupdate_spec K HR). Qed.
Print Assumptions C20_mvupdate.

Theorem C20_mvupdate_mismatch : forall T (K : num T) fuel blas2min optflags L m beta A alpha x y,
  0 < rows A -> 0 < cols A -> 0 < vlen x -> 0 < vlen y ->
  ~ isvec x \/ ~ isvec y \/ rows A <> vlen x \/ cols A <> vlen y ->
  exists code, armas_mvupdate K fuel blas2min optflags beta A alpha x y L m = Some (code, m) /\ code < 0.
Proof.
  intros T K fuel blas2min optflags L m beta A alpha x y Hr Hc Hx Hy H. unfold armas_mvupdate.
  rewrite <- !isvector_isvec in H.
  change (armas_size x) with (vlen x). change (armas_size y) with (vlen y).
  replace (armas_size A =? 0) with false by (unfold armas_size; nia).
  replace (vlen x =? 0) with false by lia. replace (vlen y =? 0) with false by lia. cbn [orb].
  destruct (armas_isvector x), (armas_isvector y); cbn [andb negb];
    try (eexists; split; [reflexivity|unfold ARMAS_ENEED_VECTOR; lia]).
  destruct H as [H|[H|H]]; [congruence|congruence|].
  replace (negb (cols A =? vlen y) || negb (rows A =? vlen x)) with true by lia.
  eexists; split; [reflexivity|unfold ARMAS_ESIZE; lia].
Qed.
Print Assumptions C20_mvupdate_mismatch.

(* thresholds 0 and 1: the recursion never ends *)
Lemma ger_diverges : forall T (K : num T) beta alpha minsz L fuel A X Y m, minsz <= 1 ->
  0 < rows A -> 0 < cols A -> update_ger_recursive K fuel beta A alpha X Y minsz L m = None.
Proof.
  intros T K beta alpha minsz L. induction fuel as [|fuel IH]; intros A X Y m Hm Hr Hc; [reflexivity|].
  cbn [update_ger_recursive].
  replace ((rows A <? minsz) || (cols A <? minsz)) with false by lia.
  destruct (quot2 (rows A) ltac:(lia)) as (EqY & HnY & _). destruct (quot2 (cols A) ltac:(lia)) as (EqX & HnX & _).
  assert (HnY' : rows A / 2 < rows A) by (apply Z.div_lt; lia).
  assert (HnX' : cols A / 2 < cols A) by (apply Z.div_lt; lia).
  rewrite EqY, EqX. cbv zeta.
  destruct (vec_partition_2x1 X (rows A / 2) PTop) as [xT xB].
  destruct (vec_partition_2x1 Y (cols A / 2) PTop) as [yT yB].
  rewrite !run_bind. repeat (rewrite ?run_bind; match goal with |- match ?c with _ => _ end = _ => destruct c as [[? ?]|]; auto end); rewrite ?run_bind.
  unfold mat_partition_2x2.
  cbn [ATL ATR ABL ABR]. apply IH; unfold armas_submatrix_unsafe, armas_make; cbn [rows cols]; lia.
Qed.

Theorem C20_threshold_one_refuted : forall T (K : num T) fuel blas2min optflags L m beta A alpha x y,
  blas2min <= 1 -> optflags <> ARMAS_ONAIVE -> isvec y -> isvec x -> 0 < rows A -> 0 < cols A ->
  vlen x = rows A -> vlen y = cols A ->
  armas_mvupdate K fuel blas2min optflags beta A alpha x y L m = None.
Proof.
  intros T K fuel blas2min optflags L m beta A alpha x y Hb Ho Vy Vx Hr Hc Ex Ey. unfold armas_mvupdate.
  change (armas_size x) with (vlen x). change (armas_size y) with (vlen y).
  replace (armas_size A =? 0) with false by (unfold armas_size; nia).
  replace (vlen x =? 0) with false by lia. replace (vlen y =? 0) with false by lia. cbn [orb].
  apply isvector_isvec in Vx as E1. apply isvector_isvec in Vy as E2. rewrite E1, E2. cbn [negb].
  rewrite Ex, Ey, !Z.eqb_refl. cbn [negb orb]. replace (optflags =? ARMAS_ONAIVE) with false by lia.
  rewrite !run_bind. rewrite ger_diverges; auto.
Qed.
Print Assumptions C20_threshold_one_refuted.

(* A 3 x 2 with a column x and a row y, recursion threshold 2 *)
Example C20_nonvacuous : exists m',
  armas_mvupdate Znum 10 2 0 2 b2_A 3 b2_y b2_x cp_L (fun a => a mod 7) = Some (0, m') /\
  elt m' b2_A 0 0 = 2 * 2 + 3 * (1 * 6) /\ elt m' b2_A 1 1 = 2 * 0 + 3 * (2 * 2) /\
  elt m' b2_A 2 1 = 2 * 1 + 3 * (3 * 2).
Proof.
  destruct b2_ok as (H1 & H2 & H3 & H4 & H5 & H6 & H7 & H8 & H9 & _).
  assert (D : forall A B, disjoint A B -> disjoint B A) by (intros A B H a Ha Hb; apply (H a); assumption).
  destruct (cp_ok 100 4 3 2 300 3 1 2) as (_ & _ & _ & _ & H10); try lia.
  destruct (C20_mvupdate Z Znum Z_ring 10 2 0 cp_L (fun a => a mod 7) 2 b2_A 3 b2_y b2_x)
    as (m' & E & H & _); auto; try reflexivity; try (left; lia); try lia.
  exists m'. split; [exact E|]. rewrite !H by (unfold pos; cbn; lia). repeat split; reflexivity.
Qed.
