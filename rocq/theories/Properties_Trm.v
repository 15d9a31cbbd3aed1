(* Properties_Trm.v: C22 triangular matrix-vector product, C23 triangular solve. *)
From Coq Require Import ZArith Lia Bool QArith Qcanon.
From Verif Require Import Mem MView SpecView PView PSub Hoare MFlags MCopy MNum SpecNum MBlas1 MElem MBlas2
  PUpd PSum PBlas1 PMvec PBlas2 PFrame SpecTrm MTrm PTrm Inst Properties_Copy.
Local Open Scope Z_scope.
Ltac lia := zlia.

(* ---- C22 ---- *)

(* the flags select: the triangle (lower unless UPPER is given), unit diagonal,
   transposition (only obeyed together with UPPER or LOWER) *)
Theorem C22_mvmult_trm : forall T (K : num T), is_ring K -> eqb_ok K ->
  forall fuel blas1min blas2min optflags L m x alpha A flags,
  let upper := has flags ARMAS_UPPER in
  let unit := has flags ARMAS_UNIT in
  let trans := has flags ARMAS_TRANS && (has flags ARMAS_UPPER || has flags ARMAS_LOWER) in
  has flags ARMAS_UPPER && has flags ARMAS_LOWER = false ->
  0 <= blas1min -> blas2min = 0 \/ 2 <= blas2min \/ has optflags ARMAS_ONAIVE = true ->
  vlen x < Z.of_nat fuel ->
  isvec x -> wf x -> allocated L x -> wf A -> allocated L A -> disjoint x A ->
  rows A = cols A -> vlen x = cols A ->
  exists m', armas_mvmult_trm K fuel blas1min blas2min optflags x alpha A flags L m = Some (0, m') /\
    (forall i, 0 <= i < vlen x -> velt m' x i =
       mul K alpha (vsum K (vlen x) (fun j => mul K (optri K upper unit trans m A i j) (velt m x j)))) /\
    only_changes x m m'.
Proof.
  intros T K HR HE fuel blas1min blas2min optflags L m x alpha A flags upper unit trans Hok Hb1 Hb2 Hf Vx Wx Lx WA LA D Sq En.
  destruct (Z.eq_dec (vlen x) 0) as [E0|E0].
  { exists m. unfold armas_mvmult_trm. change (armas_size x) with (vlen x). rewrite E0. cbn [Z.eqb]. rewrite orb_true_r.
    split; [reflexivity|]. split; [lia|apply oc_refl]. }
  pose proof (vlen_nonneg x Wx).
  assert (OX : vok L x) by (split; auto). assert (OA : mok L A) by (split; auto).
  assert (Ht : trm_ok fuel L flags x A) by (unfold trm_ok, fok; auto 10).
  assert (W : wp (armas_mvmult_trm K fuel blas1min blas2min optflags x alpha A flags) L m (fun r m' => r = 0 /\
    (forall i, 0 <= i < vlen x -> velt m' x i =
       mul K alpha (vsum K (vlen x) (fun j => mul K (optri K upper unit trans m A i j) (velt m x j)))) /\
    only_changes x m m')).
  { unfold armas_mvmult_trm. change (armas_size x) with (vlen x).
    replace (armas_size A =? 0) with false by (unfold armas_size; nia).
    replace (vlen x =? 0) with false by lia. cbn [orb]. apply isvector_isvec in Vx as E1. rewrite E1. cbn [negb].
    rewrite <- En. rewrite Sq, <- En, !Z.eqb_refl. cbn [negb orb]. wbind. apply wp_if; intros Eb.
    - apply (trmv_unb_wp K HR); auto.
      intros m' H1 H2. apply wp_ret. auto.
    - apply (trmv_switch_wp K HR HE); auto; try lia.
      + apply orb_false_iff in Eb. destruct Eb as [Eb Ez]. apply Z.eqb_neq in Ez. destruct Hb2 as [?|[?|?]]; [lia|lia|congruence].
      + intros m' H1 H2. apply wp_ret. auto. }
  destruct W as (r & m' & E & -> & H1 & H2). eauto.
Qed.
Print Assumptions C22_mvmult_trm.

(* the elements outside the selected triangle, and a unit diagonal, do not matter:
   two memories that agree on x and on the selected part give the same result *)
Theorem C22_other_triangle_unused : forall T (K : num T), is_ring K -> eqb_ok K ->
  forall fuel blas1min blas2min optflags L m1 m2 x alpha A flags,
  let upper := has flags ARMAS_UPPER in
  has flags ARMAS_UPPER && has flags ARMAS_LOWER = false ->
  0 <= blas1min -> blas2min = 0 \/ 2 <= blas2min \/ has optflags ARMAS_ONAIVE = true ->
  vlen x < Z.of_nat fuel ->
  isvec x -> wf x -> allocated L x -> wf A -> allocated L A -> disjoint x A ->
  rows A = cols A -> vlen x = cols A ->
  (forall i, 0 <= i < vlen x -> velt m1 x i = velt m2 x i) ->
  (forall i j, pos A i j -> (if upper then i < j else j < i) \/ (i = j /\ has flags ARMAS_UNIT = false) ->
     elt m1 A i j = elt m2 A i j) ->
  exists m1' m2', armas_mvmult_trm K fuel blas1min blas2min optflags x alpha A flags L m1 = Some (0, m1') /\
    armas_mvmult_trm K fuel blas1min blas2min optflags x alpha A flags L m2 = Some (0, m2') /\
    (forall i, 0 <= i < vlen x -> velt m1' x i = velt m2' x i).
Proof.
  intros T K HR HE fuel blas1min blas2min optflags L m1 m2 x alpha A flags upper Hok Hb1 Hb2 Hf Vx Wx Lx WA LA D Sq En Ex EA.
  destruct (C22_mvmult_trm T K HR HE fuel blas1min blas2min optflags L m1 x alpha A flags) as (m1' & R1 & H1 & _); auto.
  destruct (C22_mvmult_trm T K HR HE fuel blas1min blas2min optflags L m2 x alpha A flags) as (m2' & R2 & H2 & _); auto.
  exists m1', m2'. split; auto. split; auto. intros i Hi. rewrite H1, H2 by auto. f_equal. apply vsum_ext. intros j Hj.
  rewrite Ex by auto. f_equal. fold upper. unfold optri, tri. set (tr := has flags ARMAS_TRANS && _). clearbody tr.
  assert (G : forall i j, pos A i j ->
    (if i =? j then if has flags ARMAS_UNIT then one K else elt m1 A i j
     else if if upper then i <? j else j <? i then elt m1 A i j else zero K) =
    (if i =? j then if has flags ARMAS_UNIT then one K else elt m2 A i j
     else if if upper then i <? j else j <? i then elt m2 A i j else zero K)).
  { clear - EA. intros i j Hp. destruct (i =? j) eqn:Eij.
    - destruct (has flags ARMAS_UNIT) eqn:Eu; auto. apply EA; auto. right. split; [lia|auto].
    - destruct upper; [destruct (i <? j) eqn:El|destruct (j <? i) eqn:El]; auto; apply EA; auto; left; lia. }
  destruct tr; apply G; split; lia.
Qed.
Print Assumptions C22_other_triangle_unused.

Theorem C22_mvmult_trm_mismatch : forall T (K : num T) fuel blas1min blas2min optflags L m x alpha A flags,
  0 < rows A -> 0 < cols A -> 0 < vlen x ->
  ~ isvec x \/ rows A <> cols A \/ vlen x <> cols A ->
  exists code, armas_mvmult_trm K fuel blas1min blas2min optflags x alpha A flags L m = Some (code, m) /\ code < 0.
Proof.
  intros T K fuel blas1min blas2min optflags L m x alpha A flags Hr Hc Hx H. unfold armas_mvmult_trm.
  rewrite <- !isvector_isvec in H. change (armas_size x) with (vlen x).
  replace (armas_size A =? 0) with false by (unfold armas_size; nia).
  replace (vlen x =? 0) with false by lia. cbn [orb].
  destruct (armas_isvector x); cbn [negb]; [|eexists; split; [reflexivity|unfold ARMAS_ENEED_VECTOR; lia]].
  destruct H as [H|H]; [congruence|].
  replace (negb (cols A =? vlen x) || negb (rows A =? cols A)) with true by lia.
  eexists; split; [reflexivity|unfold ARMAS_ESIZE; lia].
Qed.
Print Assumptions C22_mvmult_trm_mismatch.

(* threshold 1: the recursion never ends *)
Lemma trmv_diverges : forall T (K : num T) fuel b1 L flags alpha, forall f X A m, isvec X -> wf X -> 0 < cols A -> rows A = cols A -> vlen X = cols A ->
  trmv_forward_recursive K fuel b1 1 f X alpha A flags 1 L m = None /\
  trmv_backward_recursive K fuel b1 1 f X alpha A flags 1 L m = None.
Proof.
  intros T K fuel b1 L flags alpha. induction f as [|f IH]; intros X A m VX WX Hc Sq En; [split; reflexivity|].
  cbn [trmv_forward_recursive trmv_backward_recursive]. replace (cols A <? 1) with false by lia.
  destruct (quot2 (rows A) ltac:(lia)) as (Eq & Hn & _). assert (H2 : rows A / 2 < rows A) by (apply Z.div_lt; lia).
  rewrite Eq. cbv zeta. rewrite vec_part_eq by (auto; lia).
  destruct (subvec_unsafe_vshows X (rows A / 2) (vlen X - rows A / 2)) as (V1 & V2 & _ & _ & V3); auto; try lia.
  split; rewrite !run_bind.
  - repeat (rewrite ?run_bind; match goal with |- match ?c with _ => _ end = _ => destruct c as [[? ?]|]; auto end); rewrite ?run_bind.
    apply IH; auto; unfold mat_partition_2x2, armas_submatrix_unsafe, armas_make; cbn [ABR rows cols]; lia.
  - match goal with |- match ?c with _ => _ end = _ => replace c with (@None (unit * (Z -> T))) end; auto.
    symmetry. apply IH; auto; unfold mat_partition_2x2, armas_submatrix_unsafe, armas_make; cbn [ABR rows cols]; lia.
Qed.

Theorem C22_threshold_one_refuted : forall T (K : num T) fuel blas1min optflags L m x alpha A flags,
  has optflags ARMAS_ONAIVE = false -> isvec x -> wf x -> 0 < cols A -> rows A = cols A -> vlen x = cols A ->
  armas_mvmult_trm K fuel blas1min 1 optflags x alpha A flags L m = None.
Proof.
  intros T K fuel blas1min optflags L m x alpha A flags Ho Vx Wx Hc Sq En. unfold armas_mvmult_trm.
  change (armas_size x) with (vlen x). replace (armas_size A =? 0) with false by (unfold armas_size; nia).
  replace (vlen x =? 0) with false by lia. cbn [orb]. apply isvector_isvec in Vx as E1. rewrite E1. cbn [negb].
  rewrite En, Sq, !Z.eqb_refl, Ho. cbn [negb orb Z.eqb Pos.eqb]. rewrite !run_bind. unfold trmv_switch.
  destruct (_ || _); [rewrite (proj1 (trmv_diverges _ _ _ _ _ _ _ _ x A m Vx Wx Hc Sq En))
                     |rewrite (proj2 (trmv_diverges _ _ _ _ _ _ _ _ x A m Vx Wx Hc Sq En))]; reflexivity.
Qed.
Print Assumptions C22_threshold_one_refuted.

(* UPPER|LOWER: the strategies disagree (the naive one takes the lower triangle) *)
Theorem C22_both_triangles_refuted : exists x A L (m : Z -> Z) m1 m2,
  isvec x /\ wf x /\ allocated L x /\ wf A /\ allocated L A /\ disjoint x A /\ rows A = cols A /\ vlen x = cols A /\
  armas_mvmult_trm Znum 10 0 2 0 x 1 A (Z.lor ARMAS_UPPER ARMAS_LOWER) L m = Some (0, m1) /\
  armas_mvmult_trm Znum 10 0 2 ARMAS_ONAIVE x 1 A (Z.lor ARMAS_UPPER ARMAS_LOWER) L m = Some (0, m2) /\
  velt m1 x 1 <> velt m2 x 1.
Proof.
  exists (mkview 100 2 2 1), (mkview 200 2 2 2), cp_L, (fun a => a - 99), 
    (match armas_mvmult_trm Znum 10 0 2 0 (mkview 100 2 2 1) 1 (mkview 200 2 2 2) (Z.lor ARMAS_UPPER ARMAS_LOWER) cp_L (fun a => a - 99) with Some (_, m) => m | None => fun _ => 0 end),
    (match armas_mvmult_trm Znum 10 0 2 ARMAS_ONAIVE (mkview 100 2 2 1) 1 (mkview 200 2 2 2) (Z.lor ARMAS_UPPER ARMAS_LOWER) cp_L (fun a => a - 99) with Some (_, m) => m | None => fun _ => 0 end).
  destruct (cp_ok 100 2 2 1 200 2 2 2) as (H1 & H2 & H3 & H4 & H5); try lia.
  split; [unfold isvec; cbn; lia|]. repeat (split; [first [assumption|reflexivity|vm_compute; reflexivity]|]).
  vm_compute. discriminate.
Qed.
Print Assumptions C22_both_triangles_refuted.

(* a 5 x 5 triangle, a strided row vector, threshold 2 *)
Definition tr_A : view := mkview 200 6 5 5.
Definition tr_x : view := mkview 100 3 1 5.
Lemma tr_ok : isvec tr_x /\ wf tr_x /\ allocated cp_L tr_x /\ wf tr_A /\ allocated cp_L tr_A /\ disjoint tr_x tr_A.
Proof.
  destruct (cp_ok 100 3 1 5 200 6 5 5) as (H1 & H2 & H3 & H4 & H5); try lia.
  repeat split; try assumption; unfold isvec, tr_x; cbn; lia.
Qed.

Example C22_nonvacuous : exists m',
  armas_mvmult_trm Znum 10 0 2 0 tr_x 2 tr_A (Z.lor ARMAS_UPPER ARMAS_TRANS) cp_L (fun a => a mod 7) = Some (0, m') /\
  velt m' tr_x 2 = 2 * (2 * 2 + 3 * 5 + 4 * 1).
Proof.
  destruct tr_ok as (H1 & H2 & H3 & H4 & H5 & H6).
  destruct (C22_mvmult_trm Z Znum Z_ring Z_eqb 10 0 2 0 cp_L (fun a => a mod 7) tr_x 2 tr_A (Z.lor ARMAS_UPPER ARMAS_TRANS))
    as (m' & E & H & _); auto; try reflexivity; try (right; left; lia); try lia.
  exists m'. split; [exact E|]. rewrite !H by (cbn; lia). reflexivity.
Qed.

(* ---- C23 ---- *)

Theorem C23_mvsolve_trm : forall T (K : num T), is_field K -> eqb_ok K ->
  forall fuel blas1min blas2min optflags L m x alpha A flags,
  let upper := has flags ARMAS_UPPER in
  let unit := has flags ARMAS_UNIT in
  let trans := has flags ARMAS_TRANS && (has flags ARMAS_UPPER || has flags ARMAS_LOWER) in
  has flags ARMAS_UPPER && has flags ARMAS_LOWER = false ->
  0 <= blas1min -> blas2min = 0 \/ 2 <= blas2min \/ has optflags ARMAS_ONAIVE = true ->
  vlen x < Z.of_nat fuel ->
  isvec x -> wf x -> allocated L x -> wf A -> allocated L A -> disjoint x A ->
  rows A = cols A -> vlen x = cols A ->
  unit = true \/ (forall i, 0 <= i < cols A -> elt m A i i <> zero K) ->
  exists m', armas_mvsolve_trm K fuel blas1min blas2min optflags x alpha A flags L m = Some (0, m') /\
    (forall i, 0 <= i < vlen x ->
       vsum K (vlen x) (fun j => mul K (optri K upper unit trans m A i j) (velt m' x j)) = mul K alpha (velt m x i)) /\
    only_changes x m m'.
Proof.
  intros T K HF HE fuel blas1min blas2min optflags L m x alpha A flags upper unit trans Hok Hb1 Hb2 Hf Vx Wx Lx WA LA D Sq En Hns.
  assert (HR : is_ring K) by (exact (Field_theory.F_R HF)).
  destruct (Z.eq_dec (vlen x) 0) as [E0|E0].
  { exists m. unfold armas_mvsolve_trm. change (armas_size x) with (vlen x). rewrite E0. cbn [Z.eqb]. rewrite orb_true_r.
    split; [reflexivity|]. split; [lia|apply oc_refl]. }
  pose proof (vlen_nonneg x Wx).
  assert (OX : vok L x) by (split; auto). assert (OA : mok L A) by (split; auto).
  assert (Ht : trm_ok fuel L flags x A) by (unfold trm_ok, fok; auto 10).
  assert (W : wp (armas_mvsolve_trm K fuel blas1min blas2min optflags x alpha A flags) L m (fun r m' => r = 0 /\
    (forall i, 0 <= i < vlen x ->
       vsum K (vlen x) (fun j => mul K (optri K upper unit trans m A i j) (velt m' x j)) = mul K alpha (velt m x i)) /\
    only_changes x m m')).
  { unfold armas_mvsolve_trm. change (armas_size x) with (vlen x).
    replace (armas_size A =? 0) with false by (unfold armas_size; nia).
    replace (vlen x =? 0) with false by lia. cbn [orb]. apply isvector_isvec in Vx as E1. rewrite E1. cbn [negb].
    rewrite <- En. rewrite Sq, <- En, !Z.eqb_refl. cbn [negb orb]. wbind. apply wp_if; intros Eb.
    - apply (trsv_unb_wp K HR fuel blas1min L Hb1 HF); auto; try lia.
      intros m' H1 H2. apply wp_ret. auto.
    - apply (trsv_switch_wp K HR HE fuel blas1min blas2min L Hb1); auto; try lia.
      + apply orb_false_iff in Eb. destruct Eb as [Eb Ez]. apply Z.eqb_neq in Ez. destruct Hb2 as [?|[?|?]]; [lia|lia|congruence].
      + intros m' H1 H2. apply wp_ret. auto. }
  destruct W as (r & m' & E & -> & H1 & H2). eauto.
Qed.
Print Assumptions C23_mvsolve_trm.

(* operands that do not fit: error, memory untouched *)
Theorem C23_mvsolve_trm_mismatch : forall T (K : num T) fuel blas1min blas2min optflags L m x alpha A flags,
  0 < rows A -> 0 < cols A -> 0 < vlen x ->
  ~ isvec x \/ rows A <> cols A \/ vlen x <> cols A ->
  exists code, armas_mvsolve_trm K fuel blas1min blas2min optflags x alpha A flags L m = Some (code, m) /\ code < 0.
Proof.
  intros T K fuel blas1min blas2min optflags L m x alpha A flags Hr Hc Hx H. unfold armas_mvsolve_trm.
  rewrite <- !isvector_isvec in H. change (armas_size x) with (vlen x).
  replace (armas_size A =? 0) with false by (unfold armas_size; nia).
  replace (vlen x =? 0) with false by lia. cbn [orb].
  destruct (armas_isvector x); cbn [negb]; [|eexists; split; [reflexivity|unfold ARMAS_ENEED_VECTOR; lia]].
  destruct H as [H|H]; [congruence|].
  replace (negb (cols A =? vlen x) || negb (rows A =? cols A)) with true by lia.
  eexists; split; [reflexivity|unfold ARMAS_ESIZE; lia].
Qed.
Print Assumptions C23_mvsolve_trm_mismatch.

Lemma trsv_diverges : forall T (K : num T) fuel b1 L flags, forall f alpha X A m, isvec X -> wf X -> 0 < cols A -> rows A = cols A -> vlen X = cols A ->
  trsv_forward_recursive K fuel b1 1 f X alpha A flags 1 L m = None /\
  trsv_backward_recursive K fuel b1 1 f X alpha A flags 1 L m = None.
Proof.
  intros T K fuel b1 L flags. induction f as [|f IH]; intros alpha X A m VX WX Hc Sq En; [split; reflexivity|].
  cbn [trsv_forward_recursive trsv_backward_recursive]. replace (cols A <? 1) with false by lia.
  destruct (quot2 (rows A) ltac:(lia)) as (Eq & Hn & _). assert (H2 : rows A / 2 < rows A) by (apply Z.div_lt; lia).
  rewrite Eq. cbv zeta. rewrite vec_part_eq by (auto; lia).
  destruct (subvec_unsafe_vshows X (rows A / 2) (vlen X - rows A / 2)) as (V1 & V2 & _ & _ & V3); auto; try lia.
  split; rewrite !run_bind.
  - repeat (rewrite ?run_bind; match goal with |- match ?c with _ => _ end = _ => destruct c as [[? ?]|]; auto end); rewrite ?run_bind.
    apply IH; auto; unfold mat_partition_2x2, armas_submatrix_unsafe, armas_make; cbn [ABR rows cols]; lia.
  - match goal with |- match ?c with _ => _ end = _ => replace c with (@None (unit * (Z -> T))) end; auto.
    symmetry. apply IH; auto; unfold mat_partition_2x2, armas_submatrix_unsafe, armas_make; cbn [ABR rows cols]; lia.
Qed.

Theorem C23_threshold_one_refuted : forall T (K : num T) fuel blas1min optflags L m x alpha A flags,
  has optflags ARMAS_ONAIVE = false -> isvec x -> wf x -> 0 < cols A -> rows A = cols A -> vlen x = cols A ->
  armas_mvsolve_trm K fuel blas1min 1 optflags x alpha A flags L m = None.
Proof.
  intros T K fuel blas1min optflags L m x alpha A flags Ho Vx Wx Hc Sq En. unfold armas_mvsolve_trm.
  change (armas_size x) with (vlen x). replace (armas_size A =? 0) with false by (unfold armas_size; nia).
  replace (vlen x =? 0) with false by lia. cbn [orb]. apply isvector_isvec in Vx as E1. rewrite E1. cbn [negb].
  rewrite En, Sq, !Z.eqb_refl, Ho. cbn [negb orb Z.eqb Pos.eqb]. rewrite !run_bind. unfold trsv_switch.
  destruct (_ || _); [rewrite (proj2 (trsv_diverges _ _ _ _ _ _ _ _ x A m Vx Wx Hc Sq En))
                     |rewrite (proj1 (trsv_diverges _ _ _ _ _ _ _ _ x A m Vx Wx Hc Sq En))]; reflexivity.
Qed.
Print Assumptions C23_threshold_one_refuted.

(* a 5 x 5 triangle without zeros on the diagonal, over the rationals *)
Example C23_nonvacuous : exists m',
  armas_mvsolve_trm Qcnum 10 0 2 0 tr_x (Q2Qc 2) tr_A (Z.lor ARMAS_LOWER ARMAS_TRANS) cp_L
    (fun a => Q2Qc (inject_Z (1 + a mod 5))) = Some (0, m') /\
  velt m' tr_x 4 <> velt (fun a => Q2Qc (inject_Z (1 + a mod 5))) tr_x 4.
Proof.
  destruct tr_ok as (H1 & H2 & H3 & H4 & H5 & H6).
  set (m0 := fun a => Q2Qc (inject_Z (1 + a mod 5))).
  destruct (C23_mvsolve_trm Qc Qcnum Qc_field Qc_eqb 10 0 2 0 cp_L m0 tr_x (Q2Qc 2) tr_A (Z.lor ARMAS_LOWER ARMAS_TRANS))
    as (m' & E & H & _); auto; try reflexivity; try (right; left; lia); try lia.
  - right. intros i Hi. assert (Hi' : i = 0 \/ i = 1 \/ i = 2 \/ i = 3 \/ i = 4) by (cbn in Hi; lia).
    destruct Hi' as [->|[->|[->|[->| ->]]]]; vm_compute; discriminate.
  - exists m'. split; [exact E|]. intros E4. specialize (H 4 ltac:(cbn; lia)).
    change (vlen tr_x) with 5 in H.
    rewrite (vsum_ext Qcnum 5 _ (fun j => if j =? 4 then Qcmult (elt m0 tr_A 4 4) (velt m0 tr_x 4) else Q2Qc 0)) in H.
    + vm_compute in H. discriminate.
    + intros j Hj. assert (Hj' : j = 0 \/ j = 1 \/ j = 2 \/ j = 3 \/ j = 4) by lia.
      destruct Hj' as [->|[->|[->|[->| ->]]]]; try (cbv [optri tri has]; cbn -[Qcmult velt elt]; apply Qcmult_0_l).
      rewrite <- E4. reflexivity.
Qed.
