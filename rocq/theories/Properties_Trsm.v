(* Properties_Trsm.v: C65 triangular solve with many right-hand sides. *)
From Coq Require Import ZArith Lia Bool QArith Qcanon ZifyBool.
From Verif Require Import Mem MView SpecView PView PSub Hoare MFlags MBase MCopy PUpd PCopy
  MNum SpecNum MBlas1 PSum PBlas1 MElem PElem SpecPivot MPivot PPivot MSort PSort MBlas2 PMvec PBlas2
  PFrame SpecTrm MTrm PTrm MGemm PGemm PMatcpy PMult MTrsm PTrsm Inst Properties_Copy Properties_Trm Properties_Gemm.
Local Open Scope Z_scope.
Local Open Scope prog_scope.

(* B' is the solution of  op(A)*X = alpha*B  or of  X*op(A) = alpha*B *)
Definition solves_trm {T} (K : num T) (right upper un trans : bool) (m m' : Z -> T) (alpha : T) (A B : view) : Prop :=
  forall i j, pos B i j ->
    (if right then vsum K (cols A) (fun k => mul K (elt m' B i k) (optri K upper un trans m A k j))
     else vsum K (cols A) (fun k => mul K (optri K upper un trans m A i k) (elt m' B k j))) = mul K alpha (elt m B i j).

(* the size of A that B asks for *)
Definition trm_dim (right : bool) (B : view) : Z := if right then cols B else rows B.

(* no flag of other operations *)
Definition plain_flags (flags : Z) : Prop :=
  has flags ARMAS_CTRANSA = false /\ has flags ARMAS_TRANSB = false /\ has flags ARMAS_CTRANSB = false /\ no_abs flags.

Lemma setup_rb : forall L cb mb nb kb p C A B, buf_ok L cb mb nb kb p C A B -> rb (armas_cache_setup2 cb mb nb kb p) <= MB (armas_cache_setup2 cb mb nb kb p).
Proof.
  intros L cb mb nb kb p C A B _. unfold armas_cache_setup2. destruct (split2_sizes (c_len cb) mb nb kb p) as [[mn nn] kn].
  cbn [MB rb]. destruct (c_l1mem cb >? 0); [|lia]. set (r := and_not3 _). clearbody r. set (r' := if r =? 0 then 4 else r).
  clearbody r'. destruct (r' >? mn) eqn:E; [lia|]. rewrite Z.gtb_ltb in E. apply Z.ltb_ge in E. exact E.
Qed.

Section G.
  Context {T : Type} (K : num T).
  Hypotheses (HF : is_field K) (HE : eqb_ok K).
  Let HR : is_ring K := Field_theory.F_R HF.
  Let HR' : ring_theory (zero K) (one K) (add K) (mul K) (sub K) (opp K) eq := HR.
  Add Ring Kring0 : HR'.

  Lemma solves_bel : forall right upper un trans m m' alpha A B,
    (forall q c, 0 <= q < cols A -> 0 <= c < bo right B ->
       vsum K (cols A) (fun k => mul K (optri K upper un (xorb right trans) m A q k) (bel right m' B k c)) = mul K alpha (bel right m B q c)) ->
    trm_dim right B = cols A -> solves_trm K right upper un trans m m' alpha A B.
  Proof.
    intros right upper un trans m m' alpha A B H En i j (Hi & Hj). unfold bel, bo, trm_dim in *. destruct right.
    - rewrite <- (H j i) by lia. apply vsum_ext. intros k Hk. unfold optri. destruct trans; cbn [xorb]; ring.
    - rewrite <- (H i j) by lia. apply vsum_ext. intros k Hk. rewrite xorb_false_l. ring.
  Qed.

  Lemma trsm_ok_eq : forall B A flags, has flags ARMAS_LEFT && has flags ARMAS_RIGHT = false ->
    trsm_ok B A flags = (cols A =? rows A) && (trm_dim (has flags ARMAS_RIGHT) B =? cols A).
  Proof.
    intros B A flags H. unfold trsm_ok, trm_dim.
    replace (Z.land flags (Z.lor ARMAS_LEFT ARMAS_RIGHT) =? ARMAS_RIGHT) with (has flags ARMAS_RIGHT).
    - destruct (has flags ARMAS_RIGHT); lia.
    - rewrite land_or. revert H. change ARMAS_LEFT with (2 ^ 5).
      change ARMAS_RIGHT with (2 ^ 6). rewrite !land_bit, !has_bit by lia.
      destruct (Z.testbit flags 5), (Z.testbit flags 6); intros X; try discriminate; reflexivity.
  Qed.

  Lemma trsm_run : forall fuel blas2min optflags cb mb nb kb p L m B alpha A flags,
    let right := has flags ARMAS_RIGHT in
    let ch := armas_cache_setup2 cb mb nb kb p in
    has optflags ARMAS_ONAIVE = false ->
    has flags ARMAS_LOWER = negb (has flags ARMAS_UPPER) -> has flags ARMAS_LEFT && right = false -> plain_flags flags ->
    2 <= blas2min -> rows B < Z.of_nat fuel -> cols B < Z.of_nat fuel ->
    wf B -> wf A -> allocated L B -> allocated L A -> disjoint B A -> buf_ok L cb mb nb kb p B A A ->
    rows A = cols A -> trm_dim right B = cols A -> 0 < rows B -> 0 < cols B ->
    alpha = one K \/ (if has optflags ARMAS_ORECURSIVE then cols A < blas2min else Z.min (NB ch) (cols A) < blas2min) ->
    exists m', armas_solve_trm K fuel blas2min optflags (Some cb) mb nb kb p B alpha A flags L m = Some (0, m') /\
      (has flags ARMAS_UNIT = true \/ (forall i, 0 <= i < cols A -> elt m A i i <> zero K) ->
       solves_trm K right (has flags ARMAS_UPPER) (has flags ARMAS_UNIT) (has flags ARMAS_TRANSA) m m' alpha A B) /\
      (forall a, ~ cell B a -> ~ inbuf cb p a -> m' a = m a).
  Proof.
    intros fuel blas2min optflags cb mb nb kb p L m B alpha A flags right ch Hon Hlo Hlr (F1 & F2 & F3 & F4) Hb2 Hf1 Hf2
      WB WA LB LA D BO Sq En Pr Pc Ha.
    set (Gd := has flags ARMAS_UNIT = true \/ (forall i, 0 <= i < cols A -> elt m A i i <> zero K)).
    destruct (buf_facts L cb mb nb kb p B A A BO) as (RB & OK & IA & IB).
    pose proof (setup_rb _ _ _ _ _ _ _ _ _ BO) as RM.
    destruct BO as (B1 & B2 & B3 & B4 & B5 & B6 & B7 & B8 & B9 & B10 & B11). clear B11.
    assert (HcA : 0 < cols A) by (rewrite <- En; unfold trm_dim; destruct right; lia).
    unfold armas_solve_trm. rewrite (trsm_ok_eq B A flags Hlr).
    replace (armas_size B =? 0) with false by (symmetry; apply Z.eqb_neq, Z.neq_mul_0; clear - Pr Pc; lia).
    replace (armas_size A =? 0) with false by (symmetry; apply Z.eqb_neq, Z.neq_mul_0; clear - HcA Sq; lia).
    fold right. replace (cols A =? rows A) with true by lia. replace (trm_dim right B =? cols A) with true by lia.
    rewrite Hon. cbn [orb andb negb].
    set (ce := elem_cache (armas_cache_setup2 cb mb nb kb p) p) in *.
    assert (ENB : NB ce = NB ch) by reflexivity.
    assert (Hrb : 0 < rb ce <= MB ce) by (split; [exact RB|exact RM]).
    assert (Aw : forall V, V = B \/ V = A -> away ce V).
    { intros V HV. split; intros a Ha' Hb; [apply IA, B10 in Ha'|apply IB, B10 in Ha']; destruct HV as [->| ->]; tauto. }
    assert (Hok : okk right L ce B A).
    { split; [split; auto|]. split; [split; auto|]. split; [exact D|]. split; [apply Aw; auto|]. split; [apply Aw; auto|].
      split; [exact Sq|]. split; [exact En|]. split; [exact HcA|]. unfold bo. destruct right; auto. }
    assert (Hbo : bo right B < Z.of_nat fuel) by (unfold bo; destruct right; auto).
    assert (HcF : cols A < Z.of_nat fuel) by (rewrite <- En; unfold trm_dim; destruct right; auto).
    assert (Hkf : right = false -> kflags right (xorb right (has flags ARMAS_TRANSA)) flags).
    { intros Er. unfold kflags. rewrite Er, transA_has, transB_has, abs_has. unfold trA, trB. destruct F4 as (F4 & F5).
      rewrite F1, F2, F3, F4, F5, orb_false_r. auto. }
    assert (S : spec K right Gd L ce (has flags ARMAS_UPPER) (has flags ARMAS_UNIT) (xorb right (has flags ARMAS_TRANSA))
      (if has optflags ARMAS_ORECURSIVE then armas_solve_recursive K fuel blas2min B alpha A flags ce
       else armas_solve_blocked K fuel blas2min B alpha A flags ce) alpha B A).
    { destruct (has optflags ARMAS_ORECURSIVE).
      - apply rec_spec; auto.
      - apply blocked_spec; auto. }
    assert (W : wp (if has optflags ARMAS_ORECURSIVE then armas_solve_recursive K fuel blas2min B alpha A flags ce
       else armas_solve_blocked K fuel blas2min B alpha A flags ce) L m (fun _ m' =>
         (Gd -> solves_trm K right (has flags ARMAS_UPPER) (has flags ARMAS_UNIT) (has flags ARMAS_TRANSA) m m' alpha A B) /\
         (forall a, ~ cell B a -> ~ inbuf cb p a -> m' a = m a))).
    { apply S; [intros G; exact G|]. intros m' (V & O). split; [intros G; apply solves_bel; auto|]. intros a Ha1 Ha2.
      apply O; auto. }
    destruct W as ([] & m' & E & V). exists m'. rewrite run_bind, E. split; [reflexivity|exact V].
  Qed.
End G.

(* The result solves the system and nothing else but the scratch buffer is written.  Missing
   for the full claim: alpha <> 1 with blocks of blas2min or more *)
Theorem C65_solve_trm_partial : forall T (K : num T), is_field K -> eqb_ok K ->
  forall fuel blas2min optflags cb mb nb kb p L m B alpha A flags,
  let right := has flags ARMAS_RIGHT in
  let ch := armas_cache_setup2 cb mb nb kb p in
  has optflags ARMAS_ONAIVE = false ->
  has flags ARMAS_LOWER = negb (has flags ARMAS_UPPER) -> has flags ARMAS_LEFT && right = false -> plain_flags flags ->
  2 <= blas2min -> rows B < Z.of_nat fuel -> cols B < Z.of_nat fuel ->
  wf B -> wf A -> allocated L B -> allocated L A -> disjoint B A -> buf_ok L cb mb nb kb p B A A ->
  rows A = cols A -> trm_dim right B = cols A -> 0 < rows B -> 0 < cols B ->
  has flags ARMAS_UNIT = true \/ (forall i, 0 <= i < cols A -> elt m A i i <> zero K) ->
  alpha = one K \/ (if has optflags ARMAS_ORECURSIVE then cols A < blas2min else Z.min (NB ch) (cols A) < blas2min) ->
  exists m', armas_solve_trm K fuel blas2min optflags (Some cb) mb nb kb p B alpha A flags L m = Some (0, m') /\
    solves_trm K right (has flags ARMAS_UPPER) (has flags ARMAS_UNIT) (has flags ARMAS_TRANSA) m m' alpha A B /\
    (forall a, ~ cell B a -> ~ inbuf cb p a -> m' a = m a).
Proof.
  intros T K HF HE fuel blas2min optflags cb mb nb kb p L m B alpha A flags right ch H1 H2 H3 H4 H5 H6 H7 H8 H9 H10 H11 H12 H13 H14 H15 H16 H17 Hd H18.
  destruct (trsm_run K HF HE fuel blas2min optflags cb mb nb kb p L m B alpha A flags H1 H2 H3 H4 H5 H6 H7 H8 H9 H10 H11 H12 H13 H14 H15 H16 H17 H18)
    as (m' & R & S & O). exists m'. auto.
Qed.
Print Assumptions C65_solve_trm_partial.

Lemma trsm_run_naive : forall T (K : num T), is_field K -> eqb_ok K ->
  forall fuel blas2min optflags cb mb nb kb p L m B alpha A flags,
  let right := has flags ARMAS_RIGHT in
  let trans := has flags ARMAS_TRANSA && (has flags ARMAS_UPPER || has flags ARMAS_LOWER) in
  has optflags ARMAS_ONAIVE = true ->
  has flags ARMAS_UPPER && has flags ARMAS_LOWER = false -> has flags ARMAS_LEFT && right = false ->
  blas2min = 0 \/ 2 <= blas2min -> rows B < Z.of_nat fuel -> cols B < Z.of_nat fuel ->
  wf B -> wf A -> allocated L B -> allocated L A -> disjoint B A ->
  rows A = cols A -> trm_dim right B = cols A ->
  exists m', armas_solve_trm K fuel blas2min optflags cb mb nb kb p B alpha A flags L m = Some (0, m') /\
    (has flags ARMAS_UNIT = true \/ (forall i, 0 <= i < cols A -> elt m A i i <> zero K) ->
     solves_trm K right (has flags ARMAS_UPPER) (has flags ARMAS_UNIT) trans m m' alpha A B) /\ only_changes B m m'.
Proof.
  intros T K HF HE fuel blas2min optflags cb mb nb kb p L m B alpha A flags right trans Hon Hok Hlr Hb2 Hf1 Hf2 WB WA LB LA D Sq En.
  set (Gd := has flags ARMAS_UNIT = true \/ (forall i, 0 <= i < cols A -> elt m A i i <> zero K)).
  assert (HR : is_ring K) by (exact (Field_theory.F_R HF)).
  pose proof WB as (? & ? & _). unfold armas_solve_trm.
  destruct ((armas_size B =? 0) || (armas_size A =? 0)) eqn:E0.
  { exists m. split; [reflexivity|]. split; [|apply oc_refl]. intros _ i j (Hi & Hj). exfalso.
    unfold armas_size in E0. unfold trm_dim in En. destruct right; nia. }
  assert (0 < cols A /\ 0 < rows B /\ 0 < cols B) as (HcA & Pr & Pc).
  { unfold armas_size in E0. pose proof WA as (? & ? & _). nia. }
  rewrite (trsm_ok_eq B A flags Hlr). fold right.
  replace (cols A =? rows A) with true by lia. replace (trm_dim right B =? cols A) with true by lia. rewrite Hon. cbn [andb negb].
  assert (W : wp (armas_solve_unb K fuel blas2min B alpha A flags) L m (fun _ m' =>
    (Gd -> solves_trm K right (has flags ARMAS_UPPER) (has flags ARMAS_UNIT) trans m m' alpha A B) /\ only_changes B m m')).
  { apply (unb_wp K HR HE HF right Gd); auto; try (split; assumption).
    - unfold bo. destruct right; auto.
    - unfold bo. destruct right; auto.
    - intros m' V O. split; [intros G; apply solves_bel; auto|exact O]. }
  destruct W as ([] & m' & E & V). exists m'. rewrite run_bind, E. split; [reflexivity|exact V].
Qed.

(* the unblocked version is right for every alpha; without UPPER the lower triangle is meant *)
Theorem C65_solve_trm_naive : forall T (K : num T), is_field K -> eqb_ok K ->
  forall fuel blas2min optflags cb mb nb kb p L m B alpha A flags,
  let right := has flags ARMAS_RIGHT in
  let trans := has flags ARMAS_TRANSA && (has flags ARMAS_UPPER || has flags ARMAS_LOWER) in
  has optflags ARMAS_ONAIVE = true ->
  has flags ARMAS_UPPER && has flags ARMAS_LOWER = false -> has flags ARMAS_LEFT && right = false ->
  blas2min = 0 \/ 2 <= blas2min -> rows B < Z.of_nat fuel -> cols B < Z.of_nat fuel ->
  wf B -> wf A -> allocated L B -> allocated L A -> disjoint B A ->
  rows A = cols A -> trm_dim right B = cols A ->
  has flags ARMAS_UNIT = true \/ (forall i, 0 <= i < cols A -> elt m A i i <> zero K) ->
  exists m', armas_solve_trm K fuel blas2min optflags cb mb nb kb p B alpha A flags L m = Some (0, m') /\
    solves_trm K right (has flags ARMAS_UPPER) (has flags ARMAS_UNIT) trans m m' alpha A B /\ only_changes B m m'.
Proof.
  intros T K HF HE fuel blas2min optflags cb mb nb kb p L m B alpha A flags right trans H1 H2 H3 H4 H5 H6 H7 H8 H9 H10 H11 H12 H13 Hd.
  destruct (trsm_run_naive T K HF HE fuel blas2min optflags cb mb nb kb p L m B alpha A flags H1 H2 H3 H4 H5 H6 H7 H8 H9 H10 H11 H12 H13)
    as (m' & R & S & O). exists m'. auto.
Qed.
Print Assumptions C65_solve_trm_naive.

(* whatever is on the diagonal, zeros included: the call ends with 0 and writes nothing but B
   and the scratch buffer *)
Theorem C65_solve_trm_frame_partial : forall T (K : num T), is_field K -> eqb_ok K ->
  forall fuel blas2min optflags cb mb nb kb p L m B alpha A flags,
  let right := has flags ARMAS_RIGHT in
  let ch := armas_cache_setup2 cb mb nb kb p in
  has flags ARMAS_LOWER = negb (has flags ARMAS_UPPER) -> has flags ARMAS_LEFT && right = false -> plain_flags flags ->
  2 <= blas2min -> rows B < Z.of_nat fuel -> cols B < Z.of_nat fuel ->
  wf B -> wf A -> allocated L B -> allocated L A -> disjoint B A -> buf_ok L cb mb nb kb p B A A ->
  rows A = cols A -> trm_dim right B = cols A ->
  has optflags ARMAS_ONAIVE = true \/ alpha = one K \/
    (if has optflags ARMAS_ORECURSIVE then cols A < blas2min else Z.min (NB ch) (cols A) < blas2min) ->
  exists m', armas_solve_trm K fuel blas2min optflags (Some cb) mb nb kb p B alpha A flags L m = Some (0, m') /\
    (has optflags ARMAS_ONAIVE = true -> only_changes B m m') /\
    (forall a, ~ cell B a -> ~ inbuf cb p a -> m' a = m a).
Proof.
  intros T K HF HE fuel blas2min optflags cb mb nb kb p L m B alpha A flags right ch H2 H3 H4 H5 H6 H7 H8 H9 H10 H11 H12 H13 H14 H15 H18.
  destruct (has optflags ARMAS_ONAIVE) eqn:EO.
  - assert (N1 : has flags ARMAS_UPPER && has flags ARMAS_LOWER = false) by (rewrite H2; destruct (has flags ARMAS_UPPER); reflexivity).
    destruct (trsm_run_naive T K HF HE fuel blas2min optflags (Some cb) mb nb kb p L m B alpha A flags EO N1 H3 (or_intror H5) H6 H7 H8 H9 H10 H11 H12 H14 H15)
      as (m' & R & _ & O). exists m'. split; [exact R|]. split; [auto|]. intros a Ha _. apply O. exact Ha.
  - destruct H18 as [?|H18]; [discriminate|].
    destruct (Z.eq_dec (rows B) 0) as [Z1|Z1]; [|destruct (Z.eq_dec (cols B) 0) as [Z1'|Z1']].
    1,2: exists m; split; [|split; [discriminate|auto]]; unfold armas_solve_trm;
      replace (armas_size B =? 0) with true by (symmetry; apply Z.eqb_eq; unfold armas_size; rewrite ?Z1, ?Z1'; Lia.lia); reflexivity.
    pose proof H8 as (? & ? & _).
    destruct (trsm_run K HF HE fuel blas2min optflags cb mb nb kb p L m B alpha A flags EO H2 H3 H4 H5 H6 H7 H8 H9 H10 H11 H12 H13 H14 H15
      ltac:(lia) ltac:(lia) H18) as (m' & R & _ & O). exists m'. split; [exact R|]. split; [discriminate|exact O].
Qed.
Print Assumptions C65_solve_trm_frame_partial.

(* operands that do not fit, no scratch memory, empty operands *)
Theorem C65_solve_trm_errors : forall T (K : num T) fuel blas2min optflags cb mb nb kb p L m B alpha A flags,
  has flags ARMAS_LEFT && has flags ARMAS_RIGHT = false -> wf B -> wf A ->
  (rows B = 0 \/ cols B = 0 \/ rows A = 0 \/ cols A = 0 ->
     armas_solve_trm K fuel blas2min optflags cb mb nb kb p B alpha A flags L m = Some (0, m)) /\
  (0 < rows B -> 0 < cols B -> 0 < rows A -> 0 < cols A ->
     (rows A <> cols A \/ trm_dim (has flags ARMAS_RIGHT) B <> cols A ->
        armas_solve_trm K fuel blas2min optflags cb mb nb kb p B alpha A flags L m = Some (- ARMAS_ESIZE, m)) /\
     (rows A = cols A -> trm_dim (has flags ARMAS_RIGHT) B = cols A -> has optflags ARMAS_ONAIVE = false ->
        armas_solve_trm K fuel blas2min optflags None mb nb kb p B alpha A flags L m = Some (- ARMAS_EMEMORY, m))).
Proof.
  intros T K fuel blas2min optflags cb mb nb kb p L m B alpha A flags Hlr (? & ? & _) (? & ? & _).
  unfold armas_solve_trm. rewrite (trsm_ok_eq B A flags Hlr). unfold armas_size. split.
  - intros Hz. replace ((rows B * cols B =? 0) || (rows A * cols A =? 0)) with true by nia. reflexivity.
  - intros P1 P2 P3 P4. replace (rows B * cols B =? 0) with false by nia. replace (rows A * cols A =? 0) with false by nia.
    cbn [orb]. split.
    + intros Hne. set (d := trm_dim _ B) in *. replace ((cols A =? rows A) && (d =? cols A)) with false by lia. reflexivity.
    + intros E1 E2 E3. rewrite E2, E1, !Z.eqb_refl, E3. reflexivity.
Qed.
Print Assumptions C65_solve_trm_errors.

(* with neither or both of UPPER and LOWER the blocked version returns 0 and does nothing *)
Theorem C65_no_triangle_refuted : forall T (K : num T) fuel blas2min optflags cb mb nb kb p L m B alpha A flags,
  has flags ARMAS_LOWER = has flags ARMAS_UPPER -> has flags ARMAS_LEFT && has flags ARMAS_RIGHT = false ->
  has optflags ARMAS_ONAIVE = false -> has optflags ARMAS_ORECURSIVE = false ->
  rows A = cols A -> trm_dim (has flags ARMAS_RIGHT) B = cols A ->
  armas_solve_trm K fuel blas2min optflags (Some cb) mb nb kb p B alpha A flags L m = Some (0, m).
Proof.
  intros T K fuel blas2min optflags cb mb nb kb p L m B alpha A flags Hs Hlr Hn Hr Sq En.
  unfold armas_solve_trm. rewrite (trsm_ok_eq B A flags Hlr), En, Sq, !Z.eqb_refl, Hn, Hr. cbn [andb negb].
  destruct (_ || _); [reflexivity|]. unfold armas_solve_blocked. cbv zeta. rewrite trsm_switch, Hs.
  destruct (has flags ARMAS_RIGHT), (has flags ARMAS_TRANSA), (has flags ARMAS_UPPER); reflexivity.
Qed.
Print Assumptions C65_no_triangle_refuted.

Lemma trsm_diverges : forall T (K : num T) fuel L flags ch f B alpha A m, 0 < cols A -> rows A = cols A ->
  run (solve_left_forward K fuel 1 f B alpha A flags 1 ch) L m = None /\
  run (solve_left_backward K fuel 1 f B alpha A flags 1 ch) L m = None /\
  run (solve_right_forward K fuel 1 f B alpha A flags 1 ch) L m = None /\
  run (solve_right_backward K fuel 1 f B alpha A flags 1 ch) L m = None.
Proof.
  intros T K fuel L flags ch. induction f as [|f IH]; intros B alpha A m Hc Sq; [repeat split|].
  cbn [solve_left_forward solve_left_backward solve_right_forward solve_right_backward].
  replace (cols A <? 1) with false by lia. unfold mat_partition_2x2, mat_partition_2x1, mat_partition_1x2.
  cbn [ATL ATR ABL ABR]. rewrite Sq.
  assert (H2 : Z.quot (cols A) 2 < cols A) by (apply Z.quot_lt; lia).
  repeat split; rewrite !run_bind;
    repeat (rewrite ?run_bind; match goal with |- match ?c with _ => _ end = _ => destruct c as [[? ?]|]; auto end);
    rewrite ?run_bind; apply IH; cbn; lia.
Qed.

(* with a threshold of one the recursion does not end *)
Theorem C65_threshold_one_refuted : forall T (K : num T) fuel optflags cb mb nb kb p L m B alpha A flags,
  has flags ARMAS_LOWER = negb (has flags ARMAS_UPPER) -> has flags ARMAS_LEFT && has flags ARMAS_RIGHT = false ->
  has optflags ARMAS_ONAIVE = false -> 0 < NB (armas_cache_setup2 cb mb nb kb p) ->
  rows A = cols A -> trm_dim (has flags ARMAS_RIGHT) B = cols A -> 0 < rows B -> 0 < cols B ->
  armas_solve_trm K fuel 1 optflags (Some cb) mb nb kb p B alpha A flags L m = None.
Proof.
  intros T K fuel optflags cb mb nb kb p L m B alpha A flags Hs Hlr Hn Hnb Sq En Pr Pc.
  assert (HcA : 0 < cols A) by (rewrite <- En; unfold trm_dim; destruct (has flags ARMAS_RIGHT); lia).
  unfold armas_solve_trm. rewrite (trsm_ok_eq B A flags Hlr), En, Sq, !Z.eqb_refl, Hn. cbn [andb negb].
  replace (armas_size B =? 0) with false by (symmetry; apply Z.eqb_neq, Z.neq_mul_0; lia).
  replace (armas_size A =? 0) with false by (symmetry; apply Z.eqb_neq, Z.neq_mul_0; lia). cbn [orb].
  set (ch := elem_cache _ p). assert (Hnb' : 0 < NB ch) by exact Hnb. clearbody ch.
  assert (R : forall fl B alpha A, 0 < cols A -> rows A = cols A -> run (armas_solve_recursive K fuel 1 B alpha A fl ch) L m = None).
  { intros fl B' al A' H1 H2. unfold armas_solve_recursive. cbv zeta.
    destruct (trsm_diverges T K fuel L fl ch fuel B' al A' m H1 H2) as (R1 & R2 & R3 & R4).
    destruct (_ || _); auto. destruct (_ || _); auto. destruct (_ || _); auto. }
  rewrite run_bind. destruct (has optflags ARMAS_ORECURSIVE); [rewrite R by auto; reflexivity|].
  assert (Q : run (armas_solve_blocked K fuel 1 B alpha A flags ch) L m = None); [|rewrite Q; reflexivity].
  assert (Hm : 0 < (if NB ch <? cols A then NB ch else cols A)) by (destruct (NB ch <? cols A); lia).
  unfold armas_solve_blocked. cbv zeta. rewrite trsm_switch, Hs.
  destruct (has flags ARMAS_RIGHT), (has flags ARMAS_TRANSA), (has flags ARMAS_UPPER);
    cbn [Z.eqb Z.add Z.lor ARMAS_RIGHT ARMAS_LOWER ARMAS_UPPER ARMAS_TRANSA negb orb Pos.add Pos.lor Pos.eqb];
    unfold solve_blk_ru_rlt, solve_blk_rut_rl, solve_blk_lu_llt, solve_blk_lut_ll; cbv zeta; rewrite run_bind, R by (first [exact Hm|reflexivity]); reflexivity.
Qed.
Print Assumptions C65_threshold_one_refuted.

Definition ts_B : view := mkview 100 5 5 2.
Definition ts_A : view := mkview 200 6 5 5.
Definition ts_m (a : Z) : Qc := Q2Qc (inject_Z (if a <? 200 then a - 98 else 1 + a mod 4)).

Lemma ts_ok : wf ts_B /\ wf ts_A /\ allocated cp_L ts_B /\ allocated cp_L ts_A /\ disjoint ts_B ts_A /\
  buf_ok cp_L ge_cb 64 64 160 8 ts_B ts_A ts_A.
Proof.
  destruct (ge_ok 5 2 5 5 5 6 1 1 1) as (X1 & X2 & X3 & X4 & X5 & X6 & X7 & X8 & X9); try lia.
  repeat (split; [assumption|]). unfold buf_ok. repeat (split; [first [reflexivity|cbn; lia]|]). split.
  - intros a Ha. specialize (X9 a Ha). unfold ts_B, ts_A. tauto.
  - vm_compute. repeat split; auto; discriminate.
Qed.

(* the recursive version multiplies the contribution of the first half of the unknowns to the
   second half by alpha: alpha*(B2 - A21*X1) instead of alpha*B2 - A21*X1 *)
Theorem C65_recursive_alpha_refuted : exists blas2min m' : _,
  2 <= blas2min /\
  armas_solve_trm Qcnum 20 blas2min ARMAS_ORECURSIVE (Some ge_cb) 64 64 160 8 ts_B (Q2Qc 2) ts_A (Z.lor ARMAS_LOWER ARMAS_UNIT) cp_L ts_m = Some (0, m') /\
  ~ solves_trm Qcnum false false true false ts_m m' (Q2Qc 2) ts_A ts_B.
Proof.
  set (m0 := ts_m).
  assert (W : match armas_solve_trm Qcnum 20 4 ARMAS_ORECURSIVE (Some ge_cb) 64 64 160 8 ts_B (Q2Qc 2) ts_A (Z.lor ARMAS_LOWER ARMAS_UNIT) cp_L m0 with
     | Some (r, m') => r = 0 /\ this (elt m' ts_B 0 0) = (4 # 1)%Q /\
         vsum Qcnum 5 (fun k => mul Qcnum (optri Qcnum false true false m0 ts_A 4 k) (elt m' ts_B k 0)) <> mul Qcnum (Q2Qc 2) (elt m0 ts_B 4 0)
     | None => False end).
  { vm_compute. split; [reflexivity|]. split; [reflexivity|discriminate]. }
  destruct (armas_solve_trm Qcnum 20 4 _ _ _ _ _ _ _ _ _ _ cp_L m0) as [[r m']|] eqn:E; [|contradiction].
  destruct W as (-> & _ & W). exists 4, m'. split; [lia|]. split; [exact E|].
  intros H. apply W. apply (H 4 0). split; cbn; lia.
Qed.
Print Assumptions C65_recursive_alpha_refuted.

(* a transposed solve with alpha = 2 *)
Example C65_nonvacuous : exists m',
  armas_solve_trm Qcnum 20 256 0 (Some ge_cb) 64 64 160 8 ts_B (Q2Qc 2) ts_A (Z.lor ARMAS_UPPER ARMAS_TRANSA) cp_L ts_m = Some (0, m') /\
  solves_trm Qcnum false true false true ts_m m' (Q2Qc 2) ts_A ts_B /\ elt m' ts_B 4 0 <> elt ts_m ts_B 4 0.
Proof.
  destruct ts_ok as (H1 & H2 & H3 & H4 & H5 & H6).
  destruct (C65_solve_trm_partial Qc Qcnum Qc_field Qc_eqb 20 256 0 ge_cb 64 64 160 8 cp_L ts_m ts_B (Q2Qc 2) ts_A (Z.lor ARMAS_UPPER ARMAS_TRANSA))
    as (m' & E & H & _); auto; try reflexivity; try (cbn; lia).
  - repeat split.
  - right. intros i Hi. assert (Hi' : i = 0 \/ i = 1 \/ i = 2 \/ i = 3 \/ i = 4) by (cbn in Hi; lia).
    destruct Hi' as [->|[->|[->|[->| ->]]]]; vm_compute; discriminate.
  - exists m'. split; [exact E|]. split; [exact H|].
    assert (W : match armas_solve_trm Qcnum 20 256 0 (Some ge_cb) 64 64 160 8 ts_B (Q2Qc 2) ts_A (Z.lor ARMAS_UPPER ARMAS_TRANSA) cp_L ts_m with
      | Some (r, m') => elt m' ts_B 4 0 <> elt ts_m ts_B 4 0 | None => False end) by (vm_compute; discriminate).
    rewrite E in W. exact W.
Qed.
