(* Properties_Symm.v: C84 product of a symmetric matrix and a matrix. *)
From Coq Require Import ZArith Lia Ring Bool ZifyBool.
From Verif Require Import Mem MView SpecView PView PSub Hoare MFlags MBase PBase MCopy PUpd PCopy
  MNum SpecNum MBlas1 PSum PBlas1 MElem PElem SpecPivot MPivot PPivot MSort PSort MBlas2 PMvec PBlas2
  PFrame SpecTrm MTrm PTrm MGemm PGemm PMatcpy PMult MTrsm PTrsm MSym PSym MSymm PSymm Inst Properties_Copy Properties_Gemm Properties_Trsm.
Local Open Scope Z_scope.
Local Open Scope prog_scope.
Ltac lia := zonly; zlia.

(* element (i, j) of the symmetric matrix stored in one triangle of A; with un the diagonal is ones *)
Definition symat {T} (K : num T) (upper un : bool) (m : Z -> T) (A : view) (i j : Z) : T :=
  if un && (i =? j) then one K else sym upper m A i j.

(* C' is  beta*C + alpha*A*op(B)  or  beta*C + alpha*op(B)*A *)
Definition symm_product {T} (K : num T) (right upper un transb : bool) (m m' : Z -> T)
    (beta : T) (C : view) (alpha : T) (A B : view) : Prop :=
  forall i j, pos C i j -> elt m' C i j = add K (mul K beta (elt m C i j)) (mul K alpha
    (if right then vsum K (rows A) (fun k => mul K (opelt m B transb i k) (symat K upper un m A k j))
     else vsum K (rows A) (fun k => mul K (symat K upper un m A i k) (opelt m B transb k j)))).

(* A is square and the sizes fit *)
Definition symm_shapes (right transb : bool) (C A B : view) : Prop :=
  rows A = cols A /\
  if right then rows C = oprows B transb /\ cols C = cols A /\ opcols B transb = rows A
  else rows C = rows A /\ cols C = opcols B transb /\ cols A = oprows B transb.

(* the copies of the diagonal block of A and of the block of B beside it fit in their places *)
Definition symm_blocks (right : bool) (C : view) (ch : cache) : Prop :=
  if right then Z.min (cols C) (NB ch) <= KB ch /\ Z.min (cols C) (NB ch) <= MB ch /\ Z.min (rows C) (MB ch) <= NB ch
  else Z.min (rows C) (MB ch) <= KB ch.

Lemma symm_switch : forall f, Z.land f (Z.lor (Z.lor ARMAS_LEFT ARMAS_RIGHT) ARMAS_TRANSB) =
  (if has f ARMAS_LEFT then 32 else 0) + (if has f ARMAS_RIGHT then 64 else 0) + (if has f ARMAS_TRANSB then 256 else 0).
Proof.
  intros f. rewrite !land_or. change ARMAS_LEFT with (2 ^ 5). change ARMAS_RIGHT with (2 ^ 6). change ARMAS_TRANSB with (2 ^ 8).
  rewrite !land_bit, !has_bit by Lia.lia. destruct (Z.testbit f 8), (Z.testbit f 6), (Z.testbit f 5); reflexivity.
Qed.

Lemma symm_ok_eq : forall C A B flags, has flags ARMAS_LEFT && has flags ARMAS_RIGHT = false ->
  symm_ok C A B flags = true <-> symm_shapes (has flags ARMAS_RIGHT) (has flags ARMAS_TRANSB) C A B.
Proof.
  intros C A B flags H. unfold symm_ok, symm_shapes, oprows, opcols. rewrite symm_switch.
  destruct (has flags ARMAS_LEFT), (has flags ARMAS_RIGHT), (has flags ARMAS_TRANSB); try discriminate;
    match goal with |- context [if ?x =? ?y then _ else _] =>
      change (x =? y) with true || change (x =? y) with false end; cbv iota;
    repeat match goal with |- context [if ?x =? ?y then _ else _] =>
      change (x =? y) with true || change (x =? y) with false end; cbv iota;
    try match goal with |- context [if ?x then _ else _] => change x with true || change x with false end; cbv iota;
    rewrite !andb_true_iff, !Z.eqb_eq; intuition congruence.
Qed.

Section G.
  Context {T : Type} (K : num T).
  Hypotheses (HR : is_ring K) (HE : eqb_ok K).
  Let HR' : ring_theory (zero K) (one K) (add K) (mul K) (sub K) (opp K) eq := HR.
  Add Ring Kring0 : HR'.

  Lemma symm_run : forall cb mb nb kb p L m beta C alpha A B flags,
    let up := has flags ARMAS_UPPER in let right := has flags ARMAS_RIGHT in let tb := has flags ARMAS_TRANSB in
    has flags ARMAS_LOWER = negb up -> has flags ARMAS_LEFT && right = false -> no_abs flags ->
    wf C -> wf A -> wf B -> allocated L C -> tri_allocated L up A -> allocated L B -> disjoint C A -> disjoint C B ->
    symm_shapes right tb C A B -> buf_ok L cb mb nb kb p C A B ->
    symm_blocks right C (armas_cache_setup2 cb mb nb kb p) ->
    exists m', armas_mult_sym K (Some cb) mb nb kb p beta C alpha A B flags L m = Some (0, m') /\
      symm_product K right up (has flags ARMAS_UNIT) tb m m' beta C alpha A B /\
      (forall a, ~ cell C a -> ~ inbuf cb p a -> m' a = m a).
  Proof.
    intros cb mb nb kb p L m beta C alpha A B flags up right tb Hlo Hlr Hna WC WA WB LC LA LB DA DB SH BO BL.
    pose proof (symm_ok_eq C A B flags Hlr) as SO. fold right tb in SO.
    destruct (buf_facts L cb mb nb kb p C A B BO) as (RB & OK & IA & IB).
    pose proof (setup_rb _ _ _ _ _ _ _ _ _ BO) as RM.
    destruct BO as (B1 & B2 & B3 & B4 & B5 & B6 & B7 & B8 & B9 & B10 & B11). clear B11.
    pose proof WC as (C1 & C2 & _).
    unfold armas_mult_sym.
    destruct ((rows C =? 0) || (cols C =? 0)) eqn:E0.
    { exists m. split; [reflexivity|]. split; [|auto]. intros i j (Hi & Hj). exfalso. clear - E0 Hi Hj. apply orb_true_iff in E0. lia. }
    assert (P : 0 < rows C /\ 0 < cols C) by (clear - E0 C1 C2; apply orb_false_iff in E0; lia). destruct P as (P1 & P2). clear E0.
    assert (SZ : (armas_size A =? 0) || (armas_size B =? 0) = false).
    { apply orb_false_iff. unfold armas_size. clear - SH P1 P2. unfold symm_shapes, oprows, opcols in SH.
      split; apply Z.eqb_neq, Z.neq_mul_0; destruct right, tb; lia. }
    rewrite SZ, (proj2 SO SH). cbn [negb].
    set (ce := elem_cache (armas_cache_setup2 cb mb nb kb p) p) in *.
    assert (BL' : symm_blocks right C ce) by exact BL. clear BL.
    assert (Hrb : 0 < rb ce <= MB ce) by (split; [exact RB|exact RM]).
    assert (Aw : forall V, V = C \/ V = A \/ V = B -> away ce V).
    { intros V HV. split; intros a Ha' Hb; [apply IA, B10 in Ha'|apply IB, B10 in Ha']; destruct HV as [->|[->| ->]]; tauto. }
    assert (Hab : has flags absflags = false) by (rewrite abs_has; destruct Hna as (-> & ->); reflexivity).
    clearbody ce. destruct SH as (SQ & SH).
    assert (W : wp (armas_mult_sym_unsafe K beta C alpha A B flags 0 ce) L m (fun _ m' =>
       symm_product K right up (has flags ARMAS_UNIT) tb m m' beta C alpha A B /\
       (forall a, ~ cell C a -> ~ inbuf cb p a -> m' a = m a))).
    { unfold armas_mult_sym_unsafe. fold right. unfold symm_product. destruct right eqn:Er.
      - destruct SH as (S1 & S2 & S3). destruct BL' as (K1 & K2 & K3).
        apply (right_wp K HR HE L ce OK Hrb C A B alpha beta flags (rows A) m); auto.
        + split; auto. + split; auto. + split; auto.
        + rewrite S2. auto.
        + fold tb. unfold oprows, opcols in *. destruct tb; auto.
        + fold tb. unfold oprows, opcols in *. destruct tb; auto.
        + intros m' V O. split.
          * intros i j Hp. rewrite V by auto. unfold symat, symu, Bel, opelt. fold tb up. ring.
          * intros a Ha1 Ha2. apply O; auto.
      - destruct SH as (S1 & S2 & S3).
        apply (left_wp K HR HE L ce OK Hrb C A B alpha beta flags (rows A) m); auto.
        + split; auto. + split; auto. + split; auto.
        + fold tb. unfold oprows, opcols in *. destruct tb; congruence.
        + fold tb. unfold oprows, opcols in *. destruct tb; congruence.
        + intros m' V O. split.
          * intros i j Hp. rewrite V by auto. unfold symat, symu, Bel, opelt. fold tb up. ring.
          * intros a Ha1 Ha2. apply O; auto. }
    destruct W as ([] & m' & E & V). exists m'. rewrite run_bind, E. split; [reflexivity|exact V].
  Qed.
End G.

(* beta*C + alpha*A*op(B) or beta*C + alpha*op(B)*A for all sizes, A given by one triangle, the
   other triangle neither used nor accessed; nothing but C and the scratch buffer is written *)
Theorem C84_mult_sym_partial : forall T (K : num T), is_ring K -> eqb_ok K ->
  forall cb mb nb kb p L m beta C alpha A B flags,
  let up := has flags ARMAS_UPPER in let right := has flags ARMAS_RIGHT in let tb := has flags ARMAS_TRANSB in
  has flags ARMAS_LOWER = negb up -> has flags ARMAS_LEFT && right = false -> no_abs flags ->
  wf C -> wf A -> wf B -> allocated L C -> tri_allocated L up A -> allocated L B -> disjoint C A -> disjoint C B ->
  symm_shapes right tb C A B -> buf_ok L cb mb nb kb p C A B ->
  symm_blocks right C (armas_cache_setup2 cb mb nb kb p) ->
  exists m', armas_mult_sym K (Some cb) mb nb kb p beta C alpha A B flags L m = Some (0, m') /\
    symm_product K right up (has flags ARMAS_UNIT) tb m m' beta C alpha A B /\
    (forall a, ~ cell C a -> ~ inbuf cb p a -> m' a = m a).
Proof. exact @symm_run. Qed.
Print Assumptions C84_mult_sym_partial.

(* the condition on the blocks holds with the default configuration 64, 64, 160, every buffer of
   at least 4032 bytes, 4- and 8-byte elements and all sizes *)
Theorem C84_default_config : forall cb p right C, 4032 <= c_len cb -> p = 4 \/ p = 8 ->
  symm_blocks right C (armas_cache_setup2 cb 64 64 160 p).
Proof.
  intros cb p right C Hl Hp. pose proof (C24_default_config cb p Hl Hp) as H. cbv zeta in H.
  assert (E : MB (armas_cache_setup2 cb 64 64 160 p) = NB (armas_cache_setup2 cb 64 64 160 p) /\
              NB (armas_cache_setup2 cb 64 64 160 p) <= KB (armas_cache_setup2 cb 64 64 160 p)).
  { revert H. unfold armas_cache_setup2, split2_sizes.
    replace (c_len cb <=? CACHEMIN) with false by (unfold CACHEMIN; Lia.lia). cbv zeta. cbn [MB NB KB].
    rewrite Z.div_mul by Lia.lia. intros (H1 & H2 & H3). split; [reflexivity|].
    match goal with |- and_not3 (?k * 64 / 160) <= _ => set (kn := k) in * end.
    assert (0 <= 64 / p) by (apply Z.div_pos; Lia.lia).
    pose proof (and_not3_spec (kn * 64 / 160) ltac:(apply Z.div_pos; Lia.lia)).
    assert (kn * 64 / 160 <= kn) by (apply Z.div_le_upper_bound; Lia.lia). Lia.lia. }
  destruct E as (E1 & E2). unfold symm_blocks. destruct right; Lia.lia.
Qed.
Print Assumptions C84_default_config.

(* wrong sizes and a missing scratch buffer are reported and nothing is written *)
Theorem C84_mult_sym_errors : forall T (K : num T) L (m : Z -> T) cb mb nb kb p beta C alpha A B flags,
  rows C <> 0 -> cols C <> 0 -> armas_size A <> 0 -> armas_size B <> 0 -> has flags ARMAS_LEFT && has flags ARMAS_RIGHT = false ->
  (~ symm_shapes (has flags ARMAS_RIGHT) (has flags ARMAS_TRANSB) C A B ->
     armas_mult_sym K cb mb nb kb p beta C alpha A B flags L m = Some (- ARMAS_ESIZE, m)) /\
  (symm_shapes (has flags ARMAS_RIGHT) (has flags ARMAS_TRANSB) C A B ->
     armas_mult_sym K None mb nb kb p beta C alpha A B flags L m = Some (- ARMAS_EMEMORY, m)).
Proof.
  intros T K L m cb mb nb kb p beta C alpha A B flags H1 H2 SA SB Hlr. unfold armas_mult_sym.
  pose proof (symm_ok_eq C A B flags Hlr) as SO.
  replace ((rows C =? 0) || (cols C =? 0)) with false by Lia.lia. replace ((armas_size A =? 0) || (armas_size B =? 0)) with false by Lia.lia.
  split; intros H.
  - destruct (symm_ok C A B flags); [|reflexivity]. exfalso. apply H, SO. reflexivity.
  - rewrite (proj2 SO H). reflexivity.
Qed.
Print Assumptions C84_mult_sym_errors.

(* ---- where the claim fails ---- *)

Lemma tri_alloc : forall L up A, allocated L A -> tri_allocated L up A.
Proof. intros L up A H a (i & j & Hp & _ & ->). apply H. exists i, j. auto. Qed.

Lemma symm_sample : forall mb nb kb rc cc ra ca rb cb, 0 < mb -> 0 < nb -> 0 < kb -> 0 <= rc -> 0 <= ra -> 0 <= rb ->
  0 <= cc -> 0 <= ca -> 0 <= cb -> cc * rc <= 100 -> ca * ra <= 100 -> cb * rb <= 700 ->
  (let ch := armas_cache_setup2 ge_cb mb nb kb 8 in 0 < MB ch /\ 0 < NB ch /\ 8 <= KB ch) ->
  let C := mkview 100 rc rc cc in let A := mkview 200 ra ra ca in let B := mkview 300 rb rb cb in
  wf C /\ wf A /\ wf B /\ allocated cp_L C /\ allocated cp_L A /\ allocated cp_L B /\ disjoint C A /\ disjoint C B /\
  buf_ok cp_L ge_cb mb nb kb 8 C A B.
Proof.
  intros mb nb kb rc cc ra ca rb cb H1 H2 H3 H4 H5 H6 H7 H8 H9 H10 H11 H12 H13 C A B.
  destruct (ge_ok rc cc rc ra ca ra rb cb rb) as (X1 & X2 & X3 & X4 & X5 & X6 & X7 & X8 & X9); try Lia.lia.
  repeat (split; [assumption|]). unfold buf_ok.
  repeat (split; [first [exact X9|reflexivity|assumption|cbn; Lia.lia]|]). exact H13.
Qed.

Lemma bad_symm : forall (c : M Z Z) L (m : Z -> Z) (right up un tb : bool) (beta : Z) C (alpha : Z) A B i j, pos C i j ->
  outcome c L m (fun r m' => r = 0 /\ elt m' C i j <> beta * elt m C i j + alpha *
    (if right then vsum Znum (rows A) (fun k => opelt m B tb i k * symat Znum up un m A k j)
     else vsum Znum (rows A) (fun k => symat Znum up un m A i k * opelt m B tb k j))) ->
  outcome c L m (fun r m' => r = 0 /\ ~ symm_product Znum right up un tb m m' beta C alpha A B).
Proof.
  intros c L m right up un tb beta C alpha A B i j Hp. unfold outcome. destruct (c L m) as [(r, m')|]; auto.
  intros (H1 & H2). split; [exact H1|]. intros H. apply H2, (H i j Hp).
Qed.
Ltac bad i j := apply (bad_symm _ _ _ _ _ _ _ _ _ _ _ _ i j); [split; cbn; Lia.lia|vm_compute; split; [reflexivity|discriminate]].

(* A configuration whose blocks have fewer rows than MB: the columns of the copy of the diagonal
   block of A overlap and the product is wrong *)
Theorem C84_overlap_refuted : exists C A B cb mb nb kb p L m,
  wf C /\ wf A /\ wf B /\ allocated L C /\ allocated L A /\ allocated L B /\ disjoint C A /\ disjoint C B /\
  buf_ok L cb mb nb kb p C A B /\ symm_shapes false false C A B /\
  outcome (armas_mult_sym Znum (Some cb) mb nb kb p 0 C 1 A B (ARMAS_LEFT + ARMAS_LOWER)) L m (fun r m' => r = 0 /\
    ~ symm_product Znum false false false false m m' 0 C 1 A B).
Proof.
  exists (mkview 100 10 10 1), (mkview 200 10 10 10), (mkview 300 10 10 1), ge_cb, 64, 64, 32, 8, cp_L, (fun a => a).
  destruct (symm_sample 64 64 32 10 1 10 10 10 1) as (X1 & X2 & X3 & X4 & X5 & X6 & X7 & X8 & X9); try Lia.lia.
  { vm_compute. repeat split; discriminate. }
  do 9 (split; [assumption|]). split; [repeat split; reflexivity|]. bad 0 0.
Qed.
Print Assumptions C84_overlap_refuted.

(* With A on the right and NB > MB the copy of the diagonal block reaches into the place of the
   copy of B, which then overwrites it *)
Theorem C84_right_refuted : exists C A B cb mb nb kb p L m,
  wf C /\ wf A /\ wf B /\ allocated L C /\ allocated L A /\ allocated L B /\ disjoint C A /\ disjoint C B /\
  buf_ok L cb mb nb kb p C A B /\ symm_shapes true false C A B /\ NB (armas_cache_setup2 cb mb nb kb p) <= KB (armas_cache_setup2 cb mb nb kb p) /\
  outcome (armas_mult_sym Znum (Some cb) mb nb kb p 0 C 1 A B (ARMAS_RIGHT + ARMAS_LOWER)) L m (fun r m' => r = 0 /\
    ~ symm_product Znum true false false false m m' 0 C 1 A B).
Proof.
  exists (mkview 100 1 1 10), (mkview 200 10 10 10), (mkview 300 1 1 10), ge_cb, 32, 64, 64, 8, cp_L, (fun a => a).
  destruct (symm_sample 32 64 64 1 10 10 10 1 10) as (X1 & X2 & X3 & X4 & X5 & X6 & X7 & X8 & X9); try Lia.lia.
  { vm_compute. repeat split; discriminate. }
  do 9 (split; [assumption|]). split; [repeat split; reflexivity|]. split; [vm_compute; discriminate|]. bad 0 8.
Qed.
Print Assumptions C84_right_refuted.

(* With A on the right and MB > NB the copy of B is written behind the end of the scratch buffer *)
Theorem C84_overrun_refuted : exists C A B cb mb nb kb p L m,
  wf C /\ wf A /\ wf B /\ allocated L C /\ allocated L A /\ allocated L B /\ disjoint C A /\ disjoint C B /\
  buf_ok L cb mb nb kb p C A B /\ symm_shapes true false C A B /\ NB (armas_cache_setup2 cb mb nb kb p) <= KB (armas_cache_setup2 cb mb nb kb p) /\
  armas_mult_sym Znum (Some cb) mb nb kb p 0 C 1 A B (ARMAS_RIGHT + ARMAS_LOWER) L m = None.
Proof.
  pose (L a := cp_L a && (a <? 1528)).
  exists (mkview 100 32 32 2), (mkview 200 2 2 2), (mkview 300 32 32 2), ge_cb, 256, 64, 64, 8, L, (fun a => a).
  destruct (symm_sample 256 64 64 32 2 2 2 32 2) as (X1 & X2 & X3 & X4 & X5 & X6 & X7 & X8 & X9); try Lia.lia.
  { vm_compute. repeat split; discriminate. }
  assert (AL : forall e s r c, allocated cp_L (mkview e s r c) -> 0 <= r <= s -> 0 <= c -> e + c * s <= 1528 -> allocated L (mkview e s r c)).
  { intros e s r c H Hr Hc He a Ha. unfold L. rewrite (H a Ha). destruct Ha as (i & j & (Hi & Hj) & ->). cbn in *.
    assert (0 <= j * s /\ j * s + s <= c * s) by nia. Lia.lia. }
  split; [exact X1|]. split; [exact X2|]. split; [exact X3|].
  split; [apply AL; auto; Lia.lia|]. split; [apply AL; auto; Lia.lia|]. split; [apply AL; auto; Lia.lia|].
  split; [exact X7|]. split; [exact X8|]. split.
  { destruct X9 as (Y1 & Y2 & Y3 & Y4 & Y5 & Y6 & Y7 & Y8 & Y9 & Y10 & Y11).
    unfold buf_ok. repeat (split; [assumption|]). split; [|exact Y11].
    intros a Ha. destruct (Y10 a Ha) as (Z1 & Z2). split; auto. unfold L. rewrite Z1. destruct Ha as (_ & Ha). cbn in Ha. Lia.lia. }
  split; [repeat split; reflexivity|]. split; [vm_compute; discriminate|]. vm_compute. reflexivity.
Qed.
Print Assumptions C84_overrun_refuted.

(* With neither LOWER nor UPPER the diagonal blocks are read as upper and the others as lower
   triangles: the result is the product with neither of the two symmetric matrices *)
Theorem C84_no_triangle_refuted : exists C A B cb mb nb kb p L m,
  wf C /\ wf A /\ wf B /\ allocated L C /\ allocated L A /\ allocated L B /\ disjoint C A /\ disjoint C B /\
  buf_ok L cb mb nb kb p C A B /\ symm_shapes false false C A B /\ symm_blocks false C (armas_cache_setup2 cb mb nb kb p) /\
  outcome (armas_mult_sym Znum (Some cb) mb nb kb p 0 C 1 A B ARMAS_LEFT) L m (fun r m' => r = 0 /\
    ~ symm_product Znum false false false false m m' 0 C 1 A B) /\
  outcome (armas_mult_sym Znum (Some cb) mb nb kb p 0 C 1 A B ARMAS_LEFT) L m (fun r m' => r = 0 /\
    ~ symm_product Znum false true false false m m' 0 C 1 A B).
Proof.
  exists (mkview 100 5 5 1), (mkview 200 5 5 5), (mkview 300 5 5 1), ge_cb, 8, 8, 64, 8, cp_L, (fun a => a).
  destruct (symm_sample 8 8 64 5 1 5 5 5 1) as (X1 & X2 & X3 & X4 & X5 & X6 & X7 & X8 & X9); try Lia.lia.
  { vm_compute. repeat split; discriminate. }
  do 9 (split; [assumption|]). split; [repeat split; reflexivity|]. split; [vm_compute; discriminate|]. split.
  - bad 0 0.
  - bad 4 0.
Qed.
Print Assumptions C84_no_triangle_refuted.

(* 5 x 6 results in blocks of 4 (configuration 8, 8, 64): the upper triangle of a 6 x 6 matrix on
   the right of the transpose of a 6 x 5 matrix *)
Example C84_nonvacuous :
  let C := mkview 100 7 5 6 in let A := mkview 200 6 6 6 in let B := mkview 300 8 6 5 in
  let flags := ARMAS_RIGHT + ARMAS_TRANSB + ARMAS_UPPER in
  wf C /\ wf A /\ wf B /\ allocated cp_L C /\ tri_allocated cp_L true A /\ allocated cp_L B /\ disjoint C A /\ disjoint C B /\
  has flags ARMAS_LOWER = negb (has flags ARMAS_UPPER) /\ has flags ARMAS_LEFT && has flags ARMAS_RIGHT = false /\ no_abs flags /\
  symm_shapes (has flags ARMAS_RIGHT) (has flags ARMAS_TRANSB) C A B /\
  buf_ok cp_L ge_cb 8 8 64 8 C A B /\ symm_blocks (has flags ARMAS_RIGHT) C (armas_cache_setup2 ge_cb 8 8 64 8) /\
  NB (armas_cache_setup2 ge_cb 8 8 64 8) = 4 /\
  outcome (armas_mult_sym Znum (Some ge_cb) 8 8 64 8 2 C 3 A B flags) cp_L (fun a => a mod 5)
    (fun r m' => r = 0 /\ elt m' C 4 5 = 2 * (139 mod 5) + 3 * ((332 mod 5) * (230 mod 5) + (333 mod 5) * (231 mod 5) +
       (334 mod 5) * (232 mod 5) + (335 mod 5) * (233 mod 5) + (336 mod 5) * (234 mod 5) + (337 mod 5) * (235 mod 5))).
Proof.
  cbv zeta. destruct (ge_ok 5 6 7 6 6 6 6 5 8) as (X1 & X2 & X3 & X4 & X5 & X6 & X7 & X8 & X9); try Lia.lia.
  split; [exact X1|]. split; [exact X2|]. split; [exact X3|]. split; [exact X4|]. split; [apply tri_alloc; exact X5|]. split; [exact X6|].
  split; [exact X7|]. split; [exact X8|]. split; [reflexivity|]. split; [reflexivity|]. split; [split; reflexivity|].
  split; [repeat split; reflexivity|]. split.
  { unfold buf_ok. repeat (split; [first [exact X9|reflexivity|cbn; Lia.lia]|]). vm_compute. repeat split; discriminate. }
  split; [vm_compute; repeat split; discriminate|]. split; [vm_compute; reflexivity|]. vm_compute. split; reflexivity.
Qed.
