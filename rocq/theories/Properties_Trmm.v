(* Properties_Trmm.v: C78 product of a triangular matrix and a matrix. *)
From Coq Require Import ZArith Lia Bool ZifyBool.
From Verif Require Import Mem MView SpecView PView PSub Hoare MFlags MBase MCopy PUpd PCopy
  MNum SpecNum MBlas1 PSum PBlas1 MElem PElem SpecPivot MPivot PPivot MSort PSort MBlas2 PMvec PBlas2
  PFrame SpecTrm MTrm PTrm MGemm PGemm PMatcpy PMult MTrsm PTrsm MTrmm PTrmm Inst Properties_Copy Properties_Trm Properties_Gemm
  Properties_Trsm.
Local Open Scope Z_scope.
Local Open Scope prog_scope.

(* B' is  alpha*op(A)*B  or  alpha*B*op(A) *)
Definition trm_product {T} (K : num T) (right upper un trans : bool) (m m' : Z -> T) (alpha : T) (A B : view) : Prop :=
  forall i j, pos B i j -> elt m' B i j = mul K alpha
    (if right then vsum K (cols A) (fun k => mul K (elt m B i k) (optri K upper un trans m A k j))
     else vsum K (cols A) (fun k => mul K (optri K upper un trans m A i k) (elt m B k j))).

Section G.
  Context {T : Type} (K : num T).
  Hypotheses (HR : is_ring K) (HE : eqb_ok K).
  Let HR' : ring_theory (zero K) (one K) (add K) (mul K) (sub K) (opp K) eq := HR.
  Add Ring Kring0 : HR'.

  Lemma product_bel : forall right upper un trans m m' alpha A B,
    (forall q c, 0 <= q < cols A -> 0 <= c < bo right B ->
       bel right m' B q c = prow K right B A upper un (xorb right trans) alpha m q c) ->
    trm_dim right B = cols A -> trm_product K right upper un trans m m' alpha A B.
  Proof.
    intros right upper un trans m m' alpha A B H En i j (Hi & Hj). unfold bel, bo, prow, trm_dim in *. destruct right.
    - rewrite (H j i) by lia. f_equal. apply vsum_ext. intros k Hk. unfold optri. destruct trans; cbn [xorb]; cbv beta iota; apply (Rmul_comm HR').
    - rewrite (H i j) by lia. destruct trans; reflexivity.
  Qed.

  Lemma trmm_run : forall fuel blas2min optflags cb mb nb kb p L m B alpha A flags,
    let right := has flags ARMAS_RIGHT in
    has optflags ARMAS_ONAIVE = false ->
    has flags ARMAS_LOWER = negb (has flags ARMAS_UPPER) -> has flags ARMAS_LEFT && right = false -> has flags ARMAS_ABSA = false ->
    2 <= blas2min -> rows B < Z.of_nat fuel -> cols B < Z.of_nat fuel ->
    wf B -> wf A -> allocated L B -> allocated L A -> disjoint B A -> buf_ok L cb mb nb kb p B A A ->
    rows A = cols A -> trm_dim right B = cols A -> 0 < rows B -> 0 < cols B ->
    exists m', armas_mult_trm K fuel blas2min optflags (Some cb) mb nb kb p B alpha A flags L m = Some (0, m') /\
      trm_product K right (has flags ARMAS_UPPER) (has flags ARMAS_UNIT) (has flags ARMAS_TRANSA) m m' alpha A B /\
      (forall a, ~ cell B a -> ~ inbuf cb p a -> m' a = m a).
  Proof.
    intros fuel blas2min optflags cb mb nb kb p L m B alpha A flags right Hon Hlo Hlr F4 Hb2 Hf1 Hf2
      WB WA LB LA D BO Sq En Pr Pc.
    destruct (buf_facts L cb mb nb kb p B A A BO) as (RB & OK & IA & IB).
    pose proof (setup_rb _ _ _ _ _ _ _ _ _ BO) as RM.
    destruct BO as (B1 & B2 & B3 & B4 & B5 & B6 & B7 & B8 & B9 & B10 & B11). clear B11.
    assert (HcA : 0 < cols A) by (rewrite <- En; unfold trm_dim; destruct right; lia).
    unfold armas_mult_trm. rewrite (trsm_ok_eq B A flags Hlr).
    replace (armas_size B =? 0) with false by (symmetry; apply Z.eqb_neq, Z.neq_mul_0; clear - Pr Pc; lia).
    replace (armas_size A =? 0) with false by (symmetry; apply Z.eqb_neq, Z.neq_mul_0; clear - HcA Sq; lia).
    fold right. replace (cols A =? rows A) with true by lia. replace (trm_dim right B =? cols A) with true by lia.
    rewrite Hon. cbn [orb andb negb].
    set (ce := elem_cache (armas_cache_setup2 cb mb nb kb p) p) in *.
    assert (Hrb : 0 < rb ce <= MB ce) by (split; [exact RB|exact RM]).
    assert (Aw : forall V, V = B \/ V = A -> away ce V).
    { intros V HV. split; intros a Ha' Hb; [apply IA, B10 in Ha'|apply IB, B10 in Ha']; destruct HV as [->| ->]; tauto. }
    assert (Hok : okk right L ce B A).
    { split; [split; auto|]. split; [split; auto|]. split; [exact D|]. split; [apply Aw; auto|]. split; [apply Aw; auto|].
      split; [exact Sq|]. split; [exact En|]. split; [exact HcA|]. unfold bo. destruct right; auto. }
    assert (Hbo : bo right B < Z.of_nat fuel) by (unfold bo; destruct right; auto).
    assert (HcF : cols A < Z.of_nat fuel) by (rewrite <- En; unfold trm_dim; destruct right; auto).
    assert (S : mspec K right L ce (has flags ARMAS_UPPER) (has flags ARMAS_UNIT) (xorb right (has flags ARMAS_TRANSA))
      (if has optflags ARMAS_ORECURSIVE then armas_trmm_recursive K fuel blas2min B alpha A flags ce
       else armas_trmm_blk K fuel blas2min B alpha A flags ce) alpha B A).
    { destruct (has optflags ARMAS_ORECURSIVE).
      - apply rec_spec; auto.
      - apply blk_spec; auto. }
    assert (W : wp (if has optflags ARMAS_ORECURSIVE then armas_trmm_recursive K fuel blas2min B alpha A flags ce
       else armas_trmm_blk K fuel blas2min B alpha A flags ce) L m (fun _ m' =>
         trm_product K right (has flags ARMAS_UPPER) (has flags ARMAS_UNIT) (has flags ARMAS_TRANSA) m m' alpha A B /\
         (forall a, ~ cell B a -> ~ inbuf cb p a -> m' a = m a))).
    { apply S. intros m' (V & O). split; [apply product_bel; auto|]. intros a Ha1 Ha2. apply O; auto. }
    destruct W as ([] & m' & E & V). exists m'. rewrite run_bind, E. split; [reflexivity|exact V].
  Qed.
End G.

(* alpha*op(A)*B or alpha*B*op(A) for every alpha; the other triangle, and with UNIT the diagonal,
   do not count; nothing but B and the scratch buffer is written *)
Theorem C78_mult_trm_partial : forall T (K : num T), is_ring K -> eqb_ok K ->
  forall fuel blas2min optflags cb mb nb kb p L m B alpha A flags,
  let right := has flags ARMAS_RIGHT in
  has optflags ARMAS_ONAIVE = false ->
  has flags ARMAS_LOWER = negb (has flags ARMAS_UPPER) -> has flags ARMAS_LEFT && right = false -> has flags ARMAS_ABSA = false ->
  2 <= blas2min -> rows B < Z.of_nat fuel -> cols B < Z.of_nat fuel ->
  wf B -> wf A -> allocated L B -> allocated L A -> disjoint B A -> buf_ok L cb mb nb kb p B A A ->
  rows A = cols A -> trm_dim right B = cols A -> 0 < rows B -> 0 < cols B ->
  exists m', armas_mult_trm K fuel blas2min optflags (Some cb) mb nb kb p B alpha A flags L m = Some (0, m') /\
    trm_product K right (has flags ARMAS_UPPER) (has flags ARMAS_UNIT) (has flags ARMAS_TRANSA) m m' alpha A B /\
    (forall a, ~ cell B a -> ~ inbuf cb p a -> m' a = m a).
Proof. exact @trmm_run. Qed.
Print Assumptions C78_mult_trm_partial.

(* the unblocked version; without UPPER the lower triangle is meant *)
Theorem C78_mult_trm_naive : forall T (K : num T), is_ring K -> eqb_ok K ->
  forall fuel blas2min optflags cb mb nb kb p L m B alpha A flags,
  let right := has flags ARMAS_RIGHT in
  has optflags ARMAS_ONAIVE = true -> has flags ARMAS_LEFT && right = false ->
  blas2min = 0 \/ 2 <= blas2min -> rows B < Z.of_nat fuel -> cols B < Z.of_nat fuel ->
  wf B -> wf A -> allocated L B -> allocated L A -> disjoint B A ->
  rows A = cols A -> trm_dim right B = cols A ->
  exists m', armas_mult_trm K fuel blas2min optflags cb mb nb kb p B alpha A flags L m = Some (0, m') /\
    trm_product K right (has flags ARMAS_UPPER) (has flags ARMAS_UNIT) (has flags ARMAS_TRANSA) m m' alpha A B /\ only_changes B m m'.
Proof.
  intros T K HR HE fuel blas2min optflags cb mb nb kb p L m B alpha A flags right Hon Hlr Hb2 Hf1 Hf2 WB WA LB LA D Sq En.
  pose proof WB as (? & ? & _). unfold armas_mult_trm.
  destruct ((armas_size B =? 0) || (armas_size A =? 0)) eqn:E0.
  { exists m. split; [reflexivity|]. split; [|apply oc_refl]. intros i j (Hi & Hj). exfalso.
    unfold armas_size in E0. unfold trm_dim in En. destruct right; nia. }
  assert (0 < cols A /\ 0 < rows B /\ 0 < cols B) as (HcA & Pr & Pc).
  { unfold armas_size in E0. pose proof WA as (? & ? & _). nia. }
  rewrite (trsm_ok_eq B A flags Hlr). fold right.
  replace (cols A =? rows A) with true by lia. replace (trm_dim right B =? cols A) with true by lia. rewrite Hon. cbn [andb negb].
  assert (W : wp (armas_trmm_unb K fuel blas2min B alpha A flags) L m (fun _ m' =>
    trm_product K right (has flags ARMAS_UPPER) (has flags ARMAS_UNIT) (has flags ARMAS_TRANSA) m m' alpha A B /\ only_changes B m m')).
  { apply (PTrmm.unb_wp K HR HE right) with (up := has flags ARMAS_UPPER) (un := has flags ARMAS_UNIT)
      (tt' := xorb right (has flags ARMAS_TRANSA)); auto; try (split; assumption).
    - unfold bo. destruct right; auto.
    - unfold bo. destruct right; auto.
    - intros m' V O. split; [apply product_bel; auto|exact O]. }
  destruct W as ([] & m' & E & V). exists m'. rewrite run_bind, E. split; [reflexivity|exact V].
Qed.
Print Assumptions C78_mult_trm_naive.

(* operands that do not fit, no scratch memory, empty operands *)
Theorem C78_mult_trm_errors : forall T (K : num T) fuel blas2min optflags cb mb nb kb p L m B alpha A flags,
  has flags ARMAS_LEFT && has flags ARMAS_RIGHT = false -> wf B -> wf A ->
  (rows B = 0 \/ cols B = 0 \/ rows A = 0 \/ cols A = 0 ->
     armas_mult_trm K fuel blas2min optflags cb mb nb kb p B alpha A flags L m = Some (0, m)) /\
  (0 < rows B -> 0 < cols B -> 0 < rows A -> 0 < cols A ->
     (rows A <> cols A \/ trm_dim (has flags ARMAS_RIGHT) B <> cols A ->
        armas_mult_trm K fuel blas2min optflags cb mb nb kb p B alpha A flags L m = Some (- ARMAS_ESIZE, m)) /\
     (rows A = cols A -> trm_dim (has flags ARMAS_RIGHT) B = cols A -> has optflags ARMAS_ONAIVE = false ->
        armas_mult_trm K fuel blas2min optflags None mb nb kb p B alpha A flags L m = Some (- ARMAS_EMEMORY, m))).
Proof.
  intros T K fuel blas2min optflags cb mb nb kb p L m B alpha A flags Hlr (? & ? & _) (? & ? & _).
  unfold armas_mult_trm. rewrite (trsm_ok_eq B A flags Hlr). unfold armas_size. split.
  - intros Hz. replace ((rows B * cols B =? 0) || (rows A * cols A =? 0)) with true by nia. reflexivity.
  - intros P1 P2 P3 P4. replace (rows B * cols B =? 0) with false by nia. replace (rows A * cols A =? 0) with false by nia.
    cbn [orb]. split.
    + intros Hne. set (d := trm_dim _ B) in *. replace ((cols A =? rows A) && (d =? cols A)) with false by lia. reflexivity.
    + intros E1 E2 E3. rewrite E2, E1, !Z.eqb_refl, E3. reflexivity.
Qed.
Print Assumptions C78_mult_trm_errors.

Lemma trmm_diverges : forall T (K : num T) fuel L flags ch f B alpha A m, 0 < cols A -> rows A = cols A ->
  run (mult_left_forward K fuel 1 f B alpha A flags 1 ch) L m = None /\
  run (mult_left_backward K fuel 1 f B alpha A flags 1 ch) L m = None /\
  run (mult_right_forward K fuel 1 f B alpha A flags 1 ch) L m = None /\
  run (mult_right_backward K fuel 1 f B alpha A flags 1 ch) L m = None.
Proof.
  intros T K fuel L flags ch. induction f as [|f IH]; intros B alpha A m Hc Sq; [repeat split|].
  cbn [mult_left_forward mult_left_backward mult_right_forward mult_right_backward].
  replace (cols A <? 1) with false by lia. unfold mat_partition_2x2, mat_partition_2x1, mat_partition_1x2.
  cbn [ATL ATR ABL ABR]. rewrite Sq.
  assert (H2 : Z.quot (cols A) 2 < cols A) by (apply Z.quot_lt; lia).
  repeat split; rewrite !run_bind;
    repeat (rewrite ?run_bind; match goal with |- match ?c with _ => _ end = _ => destruct c as [[? ?]|]; auto end);
    rewrite ?run_bind; apply IH; cbn; lia.
Qed.

(* with a threshold of one the recursion does not end *)
Theorem C78_threshold_one_refuted : forall T (K : num T) fuel optflags cb mb nb kb p L m B alpha A flags,
  has flags ARMAS_LEFT && has flags ARMAS_RIGHT = false ->
  has optflags ARMAS_ONAIVE = false -> has optflags ARMAS_ORECURSIVE = true ->
  rows A = cols A -> trm_dim (has flags ARMAS_RIGHT) B = cols A -> 0 < rows B -> 0 < cols B ->
  armas_mult_trm K fuel 1 optflags (Some cb) mb nb kb p B alpha A flags L m = None.
Proof.
  intros T K fuel optflags cb mb nb kb p L m B alpha A flags Hlr Hn Hre Sq En Pr Pc.
  assert (HcA : 0 < cols A) by (rewrite <- En; unfold trm_dim; destruct (has flags ARMAS_RIGHT); lia).
  unfold armas_mult_trm. rewrite (trsm_ok_eq B A flags Hlr), En, Sq, !Z.eqb_refl, Hn, Hre. cbn [andb negb].
  replace (armas_size B =? 0) with false by (symmetry; apply Z.eqb_neq, Z.neq_mul_0; lia).
  replace (armas_size A =? 0) with false by (symmetry; apply Z.eqb_neq, Z.neq_mul_0; lia). cbn [orb].
  set (ch := elem_cache _ p). rewrite run_bind. unfold armas_trmm_recursive. cbv zeta.
  destruct (trmm_diverges T K fuel L flags ch fuel B alpha A m HcA Sq) as (R1 & R2 & R3 & R4).
  destruct (_ || _); [rewrite R4; reflexivity|]. destruct (_ || _); [rewrite R3; reflexivity|].
  destruct (_ || _); [rewrite R1; reflexivity|]. rewrite R2. reflexivity.
Qed.
Print Assumptions C78_threshold_one_refuted.

Definition tm_B : view := mkview 100 5 5 2.
Definition tm_A : view := mkview 200 6 5 5.
Definition tm_m (a : Z) : Z := if a <? 200 then a - 98 else 1 + a mod 4.

(* without UPPER and LOWER the unblocked version takes the lower triangle, the recursive one
   multiplies with blocks of the untransposed matrix: a third result *)
Theorem C78_no_triangle_refuted : exists m1 m2,
  armas_mult_trm Znum 20 4 ARMAS_ONAIVE (Some ge_cb) 64 64 160 8 tm_B 1 tm_A ARMAS_TRANSA cp_L tm_m = Some (0, m1) /\
  armas_mult_trm Znum 20 4 ARMAS_ORECURSIVE (Some ge_cb) 64 64 160 8 tm_B 1 tm_A ARMAS_TRANSA cp_L tm_m = Some (0, m2) /\
  trm_product Znum false false false true tm_m m1 1 tm_A tm_B /\
  ~ trm_product Znum false false false true tm_m m2 1 tm_A tm_B /\ ~ trm_product Znum false true false true tm_m m2 1 tm_A tm_B.
Proof.
  destruct (ge_ok 5 2 5 5 5 6 1 1 1) as (X1 & X2 & X3 & X4 & X5 & X6 & X7 & X8 & X9); try lia.
  destruct (C78_mult_trm_naive Z Znum Z_ring Z_eqb 20 4 ARMAS_ONAIVE (Some ge_cb) 64 64 160 8 cp_L tm_m tm_B 1 tm_A ARMAS_TRANSA)
    as (m1 & E1 & V1 & _); [reflexivity|reflexivity|right; lia|cbn; lia|cbn; lia|exact X1|exact X2|exact X4|exact X5|exact X7|
      reflexivity|reflexivity|].
  set (m0 := tm_m) in *.
  assert (W : match armas_mult_trm Znum 20 4 ARMAS_ORECURSIVE (Some ge_cb) 64 64 160 8 tm_B 1 tm_A ARMAS_TRANSA cp_L m0 with
     | Some (r, m') => r = 0 /\
         elt m' tm_B 0 0 <> 1 * vsum Znum 5 (fun k => optri Znum false false true m0 tm_A 0 k * elt m0 tm_B k 0) /\
         elt m' tm_B 0 0 <> 1 * vsum Znum 5 (fun k => optri Znum true false true m0 tm_A 0 k * elt m0 tm_B k 0)
     | None => False end).
  { vm_compute. split; [reflexivity|]. split; discriminate. }
  destruct (armas_mult_trm Znum 20 4 ARMAS_ORECURSIVE _ _ _ _ _ _ _ _ _ cp_L m0) as [[r m2]|] eqn:E2; [|contradiction].
  destruct W as (-> & W1 & W2). exists m1, m2. split; [exact E1|]. split; [reflexivity|]. split; [exact V1|].
  split; intros H.
  - apply W1. apply (H 0 0). split; cbn; lia.
  - apply W2. apply (H 0 0). split; cbn; lia.
Qed.
Print Assumptions C78_no_triangle_refuted.

(* both sides, transposed, with a product that changes B *)
Example C78_nonvacuous : exists m',
  armas_mult_trm Znum 20 256 0 (Some ge_cb) 64 64 160 8 tm_B 2 tm_A (Z.lor ARMAS_UPPER ARMAS_TRANSA) cp_L tm_m = Some (0, m') /\
  trm_product Znum false true false true tm_m m' 2 tm_A tm_B /\ elt m' tm_B 4 0 <> elt tm_m tm_B 4 0.
Proof.
  destruct (ge_ok 5 2 5 5 5 6 1 1 1) as (X1 & X2 & X3 & X4 & X5 & X6 & X7 & X8 & X9); try lia.
  assert (BO : buf_ok cp_L ge_cb 64 64 160 8 tm_B tm_A tm_A) by (exact (proj2 (proj2 (proj2 (proj2 (proj2 ts_ok)))))).
  destruct (C78_mult_trm_partial Z Znum Z_ring Z_eqb 20 256 0 ge_cb 64 64 160 8 cp_L tm_m tm_B 2 tm_A (Z.lor ARMAS_UPPER ARMAS_TRANSA))
    as (m' & E & H & _); [reflexivity|reflexivity|reflexivity|reflexivity|lia|cbn; lia|cbn; lia|exact X1|exact X2|exact X4|exact X5|exact X7|
      exact BO|reflexivity|reflexivity|cbn; lia|cbn; lia|].
  exists m'. split; [exact E|]. split; [exact H|].
  assert (W : match armas_mult_trm Znum 20 256 0 (Some ge_cb) 64 64 160 8 tm_B 2 tm_A (Z.lor ARMAS_UPPER ARMAS_TRANSA) cp_L tm_m with
    | Some (r, m') => elt m' tm_B 4 0 <> elt tm_m tm_B 4 0 | None => False end) by (vm_compute; discriminate).
  rewrite E in W. exact W.
Qed.
