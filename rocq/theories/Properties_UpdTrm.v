(* Properties_UpdTrm.v: C67 rank-k update of one triangle (armas_update_trm, armas_update_sym). *)
From Coq Require Import ZArith Lia Bool ZifyBool Ring.
From Verif Require Import Mem MView SpecView PView PSub Hoare MFlags MBase MCopy PUpd PCopy Properties_Copy
  MNum SpecNum MBlas1 PSum PBlas1 Inst MElem PElem MBlas2 PMvec PBlas2
  PFrame SpecTrm MTrm PTrm MGemm PGemm PMatcpy PMult Properties_Gemm MTrsm PTrsm MUpdTrm PUpdTrm.
Local Open Scope Z_scope.
Local Open Scope prog_scope.

Ltac lia := nobool; zlia.

(* C' = beta*C + alpha*op(A)*op(B) in the upper (lower) triangle or trapezoid, C elsewhere *)
Definition updated_trm {T} (K : num T) (up ta tb : bool) (beta alpha : T) (m m' : Z -> T) (C A B : view) : Prop :=
  forall i j, pos C i j -> elt m' C i j =
    if (if up then i <=? j else j <=? i) then
      add K (mul K beta (elt m C i j))
            (mul K alpha (vsum K (opcols A ta) (fun k => mul K (opelt m A ta i k) (opelt m B tb k j))))
    else elt m C i j.

(* no conjugation or absolute value flags *)
Definition real_flags (flags : Z) : Prop :=
  has flags ARMAS_CTRANSA = false /\ has flags ARMAS_CTRANSB = false /\ no_abs flags.

Definition upd_shapes (C A B : view) (flags : Z) : Prop :=
  let ta := has flags ARMAS_TRANSA in let tb := has flags ARMAS_TRANSB in
  rows C = oprows A ta /\ cols C = opcols B tb /\ opcols A ta = oprows B tb.

Lemma upd_ok_eq : forall C A B flags, upd_ok C A B flags = true <-> upd_shapes C A B flags.
Proof.
  intros C A B flags. unfold upd_ok, upd_shapes, oprows, opcols. rewrite !andb_true_iff, !Z.eqb_eq.
  destruct (has flags ARMAS_TRANSA), (has flags ARMAS_TRANSB); tauto.
Qed.

Section U.
  Context {T : Type} (K : num T).
  Hypotheses (HR : is_ring K) (HE : eqb_ok K).
  Let HR' : ring_theory (zero K) (one K) (add K) (mul K) (sub K) (opp K) eq := HR.
  Add Ring KringUT : HR'.

  Lemma upd_sizes : forall C A B flags, upd_shapes C A B flags -> 0 < rows C -> 0 < cols C -> 0 < opcols A (has flags ARMAS_TRANSA) ->
    (armas_size C =? 0) || (armas_size A =? 0) || (armas_size B =? 0) = false /\ upd_ok C A B flags = true.
  Proof.
    intros C A B flags H H1 H2 H3. split; [|apply upd_ok_eq; auto]. unfold upd_shapes, oprows, opcols, armas_size in *.
    destruct (has flags ARMAS_TRANSA), (has flags ARMAS_TRANSB); nia.
  Qed.

  (* all the paths *)
  Lemma update_trm_wp : forall fuel blas2min opt cb mb nb kb p L (m : Z -> T) beta C alpha A B flags (Q : Z -> (Z -> T) -> Prop),
    blas2min = 0 \/ 2 <= blas2min ->
    wf C -> wf A -> wf B -> allocated L C -> allocated L A -> allocated L B -> disjoint C A -> disjoint C B ->
    upd_shapes C A B flags -> 0 < rows C -> 0 < cols C -> 0 < opcols A (has flags ARMAS_TRANSA) ->
    rows C < Z.of_nat fuel -> cols C < Z.of_nat fuel ->
    (has opt ARMAS_ONAIVE = true \/
     (real_flags flags /\ 2 <= blas2min /\
      exists c, cb = Some c /\ buf_ok L c mb nb kb p C A B /\
        (has flags ARMAS_UPPER = true ->
          if opt =? ARMAS_ORECURSIVE then splits (Z.min (rows C) (cols C)) blas2min
          else NB (armas_cache_setup2 c mb nb kb p) < blas2min))) ->
    (forall m', updated_trm K (has flags ARMAS_UPPER) (has flags ARMAS_TRANSA) (has flags ARMAS_TRANSB) beta alpha m m' C A B ->
      (forall a, ~ cell C a -> (forall c, has opt ARMAS_ONAIVE = false -> cb = Some c -> ~ inbuf c p a) -> m' a = m a) -> Q 0 m') ->
    wp (armas_update_trm K fuel blas2min opt cb mb nb kb p beta C alpha A B flags) L m Q.
  Proof.
    intros fuel blas2min opt cb mb nb kb p L m beta C alpha A B flags Q Hb WC WA WB LC LA LB DA DB SH P1 P2 P3 F1 F2 HP HQ.
    destruct (upd_sizes C A B flags SH P1 P2 P3) as (Z1 & Z2).
    unfold armas_update_trm. rewrite Z1, Z2. cbn [negb].
    set (P := opcols A (has flags ARMAS_TRANSA)) in *.
    assert (SA : if has flags ARMAS_TRANSA then rows A = P /\ cols A = rows C else rows A = rows C /\ cols A = P).
    { unfold upd_shapes, oprows, P, opcols in *. destruct (has flags ARMAS_TRANSA); lia. }
    assert (SB : if has flags ARMAS_TRANSB then rows B = cols C /\ cols B = P else rows B = P /\ cols B = cols C).
    { destruct SH as (_ & S2 & S3). fold P in S3. unfold oprows, opcols in *. destruct (has flags ARMAS_TRANSB); lia. }
    assert (FIN : forall m', (forall i j, pos C i j -> elt m' C i j =
         if (if has flags ARMAS_UPPER then i <=? j else j <=? i) then fin K A B C alpha beta flags P m i j else elt m C i j) ->
         updated_trm K (has flags ARMAS_UPPER) (has flags ARMAS_TRANSA) (has flags ARMAS_TRANSB) beta alpha m m' C A B).
    { intros m' V i j Hij. rewrite V by auto. destruct (if has flags ARMAS_UPPER then i <=? j else j <=? i); [|reflexivity].
      unfold fin. fold P. unfold oA, oB, opelt. ring. }
    destruct (has opt ARMAS_ONAIVE) eqn:EO.
    - wbind. apply (fills_wp K fuel L A B C alpha beta flags P (fun _ => False) m).
      + apply (naive_all K HR HE); auto; split; auto.
      + intros m' V F. apply wp_ret, HQ; auto.
    - destruct HP as [?|((RA & RB & RC & RD) & Hb2 & c & -> & BO & HS)]; [discriminate|].
      destruct (buf_facts L c mb nb kb p C A B BO) as (RBk & OK & IA & IB).
      pose proof BO as (_ & _ & _ & _ & _ & _ & _ & _ & _ & B10 & _).
      assert (EN : NB (elem_cache (armas_cache_setup2 c mb nb kb p) p) = NB (armas_cache_setup2 c mb nb kb p)) by reflexivity.
      rewrite <- EN in HS. clear EN.
      set (ch := elem_cache (armas_cache_setup2 c mb nb kb p) p) in *. clearbody ch.
      assert (Fa : has flags absflags = false) by (rewrite abs_has, RC, RD; reflexivity).
      assert (FA : has flags transA = has flags ARMAS_TRANSA) by (rewrite transA_has; unfold trA; rewrite RA; apply orb_false_r).
      assert (FB : has flags transB = has flags ARMAS_TRANSB) by (rewrite transB_has; unfold trB; rewrite RB; apply orb_false_r).
      assert (N1 : forall a, inbuf c p a -> ~ cell A a) by (intros a Ha; apply B10 in Ha; tauto).
      assert (N2 : forall a, inbuf c p a -> ~ cell B a) by (intros a Ha; apply B10 in Ha; tauto).
      assert (N3 : forall a, inbuf c p a -> ~ cell C a) by (intros a Ha; apply B10 in Ha; tauto).
      wbind. apply (fills_wp K fuel L A B C alpha beta flags P (inbuf c p) m).
      + destruct (opt =? ARMAS_ORECURSIVE).
        * apply (rec_fills K HR HE); auto; try lia; split; auto.
        * apply (blk_fills K HR HE); auto; try lia; split; auto.
      + intros m' V F. apply wp_ret, HQ; auto.
  Qed.
End U.

(* The unblocked version: any flags, any size, upper or lower, trapezoids too *)
Theorem C67_update_trm_naive : forall T (K : num T), is_ring K -> eqb_ok K ->
  forall fuel blas2min opt cb mb nb kb p L (m : Z -> T) beta C alpha A B flags,
    has opt ARMAS_ONAIVE = true -> blas2min = 0 \/ 2 <= blas2min ->
    wf C -> wf A -> wf B -> allocated L C -> allocated L A -> allocated L B -> disjoint C A -> disjoint C B ->
    upd_shapes C A B flags -> 0 < rows C -> 0 < cols C -> 0 < opcols A (has flags ARMAS_TRANSA) ->
    rows C < Z.of_nat fuel -> cols C < Z.of_nat fuel ->
    exists m', armas_update_trm K fuel blas2min opt cb mb nb kb p beta C alpha A B flags L m = Some (0, m') /\
      updated_trm K (has flags ARMAS_UPPER) (has flags ARMAS_TRANSA) (has flags ARMAS_TRANSB) beta alpha m m' C A B /\
      only_changes C m m'.
Proof.
  intros T K HR HE fuel blas2min opt cb mb nb kb p L m beta C alpha A B flags EO Hb WC WA WB LC LA LB DA DB SH P1 P2 P3 F1 F2.
  assert (W : wp (armas_update_trm K fuel blas2min opt cb mb nb kb p beta C alpha A B flags) L m (fun r m' => r = 0 /\
      updated_trm K (has flags ARMAS_UPPER) (has flags ARMAS_TRANSA) (has flags ARMAS_TRANSB) beta alpha m m' C A B /\
      only_changes C m m')).
  { apply (update_trm_wp K HR HE); auto. intros m' V F. split; [reflexivity|]. split; [exact V|].
    intros a Ha. apply F; auto. intros c E. rewrite EO in E. discriminate. }
  destruct W as (r & m' & E & -> & H). exists m'. split; [exact E|exact H].
Qed.
Print Assumptions C67_update_trm_naive.

(* The recursive and the blocked version, for the lower triangle *)
Theorem C67_update_trm_lower : forall T (K : num T), is_ring K -> eqb_ok K ->
  forall fuel blas2min opt cb mb nb kb p L (m : Z -> T) beta C alpha A B flags,
    has flags ARMAS_UPPER = false -> real_flags flags -> 2 <= blas2min ->
    wf C -> wf A -> wf B -> allocated L C -> allocated L A -> allocated L B -> disjoint C A -> disjoint C B ->
    upd_shapes C A B flags -> 0 < rows C -> 0 < cols C -> 0 < opcols A (has flags ARMAS_TRANSA) ->
    rows C < Z.of_nat fuel -> cols C < Z.of_nat fuel ->
    buf_ok L cb mb nb kb p C A B ->
    exists m', armas_update_trm K fuel blas2min opt (Some cb) mb nb kb p beta C alpha A B flags L m = Some (0, m') /\
      updated_trm K false (has flags ARMAS_TRANSA) (has flags ARMAS_TRANSB) beta alpha m m' C A B /\
      (forall a, ~ cell C a -> ~ inbuf cb p a -> m' a = m a).
Proof.
  intros T K HR HE fuel blas2min opt cb mb nb kb p L m beta C alpha A B flags Hup RF Hb WC WA WB LC LA LB DA DB SH P1 P2 P3 F1 F2 BO.
  assert (W : wp (armas_update_trm K fuel blas2min opt (Some cb) mb nb kb p beta C alpha A B flags) L m (fun r m' => r = 0 /\
      updated_trm K false (has flags ARMAS_TRANSA) (has flags ARMAS_TRANSB) beta alpha m m' C A B /\
      (forall a, ~ cell C a -> ~ inbuf cb p a -> m' a = m a))).
  { apply (update_trm_wp K HR HE); auto.
    - right. split; [exact RF|]. split; [exact Hb|]. exists cb. split; [reflexivity|]. split; [exact BO|]. rewrite Hup. discriminate.
    - rewrite Hup. intros m' V F. split; [reflexivity|]. split; [exact V|].
      intros a Ha Hi. apply F; auto. intros c _ E. injection E as <-. exact Hi. }
  destruct W as (r & m' & E & -> & H). exists m'. split; [exact E|exact H].
Qed.
Print Assumptions C67_update_trm_lower.

(* The recursive and the blocked version, for the upper triangle.  Missing: sizes where the
   recursion halves an odd size (C67_odd_split_refuted).  With the default configuration the
   blocks of the blocked version are below the recursion limit, so it never does. *)
Theorem C67_update_trm_upper_partial : forall T (K : num T), is_ring K -> eqb_ok K ->
  forall fuel blas2min opt cb mb nb kb p L (m : Z -> T) beta C alpha A B flags,
    has flags ARMAS_UPPER = true -> real_flags flags -> 2 <= blas2min ->
    (if opt =? ARMAS_ORECURSIVE then exists k q, 0 <= k /\ Z.min (rows C) (cols C) = q * 2 ^ k /\ q < blas2min
     else NB (armas_cache_setup2 cb mb nb kb p) < blas2min) ->
    wf C -> wf A -> wf B -> allocated L C -> allocated L A -> allocated L B -> disjoint C A -> disjoint C B ->
    upd_shapes C A B flags -> 0 < rows C -> 0 < cols C -> 0 < opcols A (has flags ARMAS_TRANSA) ->
    rows C < Z.of_nat fuel -> cols C < Z.of_nat fuel ->
    buf_ok L cb mb nb kb p C A B ->
    exists m', armas_update_trm K fuel blas2min opt (Some cb) mb nb kb p beta C alpha A B flags L m = Some (0, m') /\
      updated_trm K true (has flags ARMAS_TRANSA) (has flags ARMAS_TRANSB) beta alpha m m' C A B /\
      (forall a, ~ cell C a -> ~ inbuf cb p a -> m' a = m a).
Proof.
  intros T K HR HE fuel blas2min opt cb mb nb kb p L m beta C alpha A B flags Hup RF Hb HS WC WA WB LC LA LB DA DB SH P1 P2 P3 F1 F2 BO.
  assert (W : wp (armas_update_trm K fuel blas2min opt (Some cb) mb nb kb p beta C alpha A B flags) L m (fun r m' => r = 0 /\
      updated_trm K true (has flags ARMAS_TRANSA) (has flags ARMAS_TRANSB) beta alpha m m' C A B /\
      (forall a, ~ cell C a -> ~ inbuf cb p a -> m' a = m a))).
  { apply (update_trm_wp K HR HE); auto.
    - right. split; [exact RF|]. split; [exact Hb|]. exists cb. split; [reflexivity|]. split; [exact BO|]. intros _. exact HS.
    - rewrite Hup. intros m' V F. split; [reflexivity|]. split; [exact V|].
      intros a Ha Hi. apply F; auto. intros c _ E. injection E as <-. exact Hi. }
  destruct W as (r & m' & E & -> & H). exists m'. split; [exact E|exact H].
Qed.
Print Assumptions C67_update_trm_upper_partial.

(* ---- the symmetric update: C = beta*C + alpha*A*A^T or beta*C + alpha*A^T*A ---- *)

Lemma sym_uflags : forall flags t,
  let u := Z.lor (Z.land flags (Z.lor ARMAS_UPPER ARMAS_LOWER)) (if t : bool then ARMAS_TRANSA else ARMAS_TRANSB) in
  has u ARMAS_UPPER = has flags ARMAS_UPPER /\ has u ARMAS_TRANSA = t /\ has u ARMAS_TRANSB = negb t /\ real_flags u.
Proof.
  intros flags t u. unfold real_flags, no_abs.
  assert (X : forall b, has u b = has (Z.land flags (Z.lor ARMAS_UPPER ARMAS_LOWER)) b || has (if t then ARMAS_TRANSA else ARMAS_TRANSB) b)
    by (intros b; apply has_lor).
  assert (Y : forall b, Z.land 3 b = 0 -> has (Z.land flags (Z.lor ARMAS_UPPER ARMAS_LOWER)) b = false).
  { intros b Hb. unfold has. rewrite <- Z.land_assoc. change (Z.lor ARMAS_UPPER ARMAS_LOWER) with 3. rewrite Hb, Z.land_0_r. reflexivity. }
  assert (Y2 : has (Z.land flags (Z.lor ARMAS_UPPER ARMAS_LOWER)) ARMAS_UPPER = has flags ARMAS_UPPER).
  { unfold has. rewrite <- Z.land_assoc. reflexivity. }
  rewrite !X, Y2. rewrite !Y by reflexivity. destruct t; cbn; rewrite ?orb_false_r; repeat split; reflexivity.
Qed.

Definition sym_shapes (C A : view) (flags : Z) : Prop := rows C = cols C /\ rows C = oprows A (has flags ARMAS_TRANS).

Theorem C67_update_sym_partial : forall T (K : num T), is_ring K -> eqb_ok K ->
  forall fuel blas2min opt cb mb nb kb p L (m : Z -> T) beta C alpha A flags,
    2 <= blas2min ->
    (has flags ARMAS_UPPER = true -> has opt ARMAS_ONAIVE = false ->
      if opt =? ARMAS_ORECURSIVE then exists k q, 0 <= k /\ rows C = q * 2 ^ k /\ q < blas2min
      else NB (armas_cache_setup2 cb mb nb kb p) < blas2min) ->
    wf C -> wf A -> allocated L C -> allocated L A -> disjoint C A ->
    sym_shapes C A flags -> 0 < rows C -> 0 < opcols A (has flags ARMAS_TRANS) -> rows C < Z.of_nat fuel ->
    buf_ok L cb mb nb kb p C A A ->
    exists m', armas_update_sym K fuel blas2min opt (Some cb) mb nb kb p beta C alpha A flags L m = Some (0, m') /\
      (forall i j, pos C i j -> elt m' C i j =
         if (if has flags ARMAS_UPPER then i <=? j else j <=? i) then
           add K (mul K beta (elt m C i j))
             (mul K alpha (vsum K (opcols A (has flags ARMAS_TRANS)) (fun k =>
                mul K (opelt m A (has flags ARMAS_TRANS) i k) (opelt m A (has flags ARMAS_TRANS) j k))))
         else elt m C i j) /\
      (forall a, ~ cell C a -> ~ inbuf cb p a -> m' a = m a).
Proof.
  intros T K HR HE fuel blas2min opt cb mb nb kb p L m beta C alpha A flags Hb HS WC WA LC LA DA (S1 & S2) P1 P2 F1 BO.
  set (t := has flags ARMAS_TRANS) in *.
  destruct (sym_uflags flags t) as (U1 & U2 & U3 & U4).
  set (u := Z.lor (Z.land flags (Z.lor ARMAS_UPPER ARMAS_LOWER)) (if t then ARMAS_TRANSA else ARMAS_TRANSB)) in *.
  assert (W : wp (armas_update_sym K fuel blas2min opt (Some cb) mb nb kb p beta C alpha A flags) L m (fun r m' => r = 0 /\
      (forall i j, pos C i j -> elt m' C i j =
         if (if has flags ARMAS_UPPER then i <=? j else j <=? i) then
           add K (mul K beta (elt m C i j))
             (mul K alpha (vsum K (opcols A t) (fun k => mul K (opelt m A t i k) (opelt m A t j k))))
         else elt m C i j) /\
      (forall a, ~ cell C a -> ~ inbuf cb p a -> m' a = m a))).
  { unfold armas_update_sym. fold t.
    assert (Z1 : (armas_size A =? 0) || (armas_size C =? 0) = false).
    { unfold armas_size, oprows, opcols in *. clear - S1 S2 P1 P2. destruct t; nia. }
    rewrite Z1. cbv zeta. fold u.
    replace (if t then (rows C =? cols A) && (rows C =? cols C) else (rows C =? rows A) && (rows C =? cols C)) with true
      by (unfold oprows in S2; destruct t; rewrite <- S2, <- S1, Z.eqb_refl; reflexivity).
    cbn [negb]. apply (update_trm_wp K HR HE); auto.
    - unfold upd_shapes. rewrite U2, U3. unfold oprows, opcols in *. destruct t; cbn [negb]; lia.
    - lia.
    - rewrite U2. exact P2.
    - lia.
    - destruct (has opt ARMAS_ONAIVE) eqn:EO; [left; reflexivity|right].
      split; [exact U4|]. split; [exact Hb|]. exists cb. split; [reflexivity|]. split; [exact BO|].
      rewrite U1. intros EU. specialize (HS EU eq_refl). replace (Z.min (rows C) (cols C)) with (rows C) by Lia.lia. exact HS.
    - rewrite U1, U2, U3. intros m' V F. split; [reflexivity|]. split.
      + intros i j Hp. rewrite V by auto. destruct (if has flags ARMAS_UPPER then i <=? j else j <=? i); [|reflexivity].
        f_equal. f_equal. apply vsum_ext. intros k Hk. f_equal. unfold opelt. destruct t; reflexivity.
      + intros a Ha Hi. apply F; auto. intros c _ E. injection E as <-. exact Hi. }
  destruct W as (r & m' & E & -> & H). exists m'. split; [exact E|exact H].
Qed.
Print Assumptions C67_update_sym_partial.

(* ---- errors ---- *)
Theorem C67_errors : forall T (K : num T) fuel blas2min opt cb mb nb kb p L (m : Z -> T) beta C alpha A B flags,
  armas_size C <> 0 -> armas_size A <> 0 -> armas_size B <> 0 ->
  (~ upd_shapes C A B flags ->
     armas_update_trm K fuel blas2min opt cb mb nb kb p beta C alpha A B flags L m = Some (- ARMAS_ESIZE, m)) /\
  (upd_shapes C A B flags -> has opt ARMAS_ONAIVE = false ->
     armas_update_trm K fuel blas2min opt None mb nb kb p beta C alpha A B flags L m = Some (- ARMAS_EMEMORY, m)) /\
  (~ sym_shapes C A flags ->
     armas_update_sym K fuel blas2min opt cb mb nb kb p beta C alpha A flags L m = Some (- ARMAS_ESIZE, m)).
Proof.
  intros T K fuel blas2min opt cb mb nb kb p L m beta C alpha A B flags S1 S2 S3.
  apply Z.eqb_neq in S1, S2, S3. unfold armas_update_sym, armas_update_trm. rewrite S1, S2, S3. cbn [orb].
  split; [|split].
  - intros H. destruct (upd_ok C A B flags) eqn:E; [|reflexivity]. exfalso. apply H, upd_ok_eq, E.
  - intros H EO. apply upd_ok_eq in H. rewrite H, EO. reflexivity.
  - intros H. replace (if has flags ARMAS_TRANS then (rows C =? cols A) && (rows C =? cols C) else (rows C =? rows A) && (rows C =? cols C)) with false; [reflexivity|].
    symmetry. apply not_true_is_false. intros E. apply H. unfold sym_shapes, oprows.
    destruct (has flags ARMAS_TRANS); apply andb_true_iff in E as (E1 & E2); apply Z.eqb_eq in E1, E2; auto.
Qed.
Print Assumptions C67_errors.

(* ---- where the claim fails ---- *)

(* Halving an odd size: the block above the diagonal gets one row too many, so a row of the
   result is updated twice.  Rank one update of a 3 by 3 zero matrix with ones. *)
Definition ut_C : view := mkview 100 3 3 3.
Definition ut_A : view := mkview 200 3 3 1.
Definition ut_B : view := mkview 300 1 1 3.
Definition ut_m : Z -> Z := fun a => if a <? 200 then 0 else 1.

Lemma ut_ok : wf ut_C /\ wf ut_A /\ wf ut_B /\ allocated cp_L ut_C /\ allocated cp_L ut_A /\ allocated cp_L ut_B /\
  disjoint ut_C ut_A /\ disjoint ut_C ut_B /\ buf_ok cp_L ge_cb 64 64 160 8 ut_C ut_A ut_B.
Proof.
  destruct (ge_ok 3 3 3 3 1 3 1 3 1) as (X1 & X2 & X3 & X4 & X5 & X6 & X7 & X8 & X9); try lia.
  repeat (split; [assumption|]). unfold buf_ok. repeat (split; [first [exact X9|reflexivity|cbn; lia]|]).
  vm_compute. repeat split; discriminate.
Qed.

Theorem C67_odd_split_refuted : exists fuel blas2min opt cb mb nb kb p L m C A B flags,
  2 <= blas2min /\ real_flags flags /\ has flags ARMAS_UPPER = true /\
  wf C /\ wf A /\ wf B /\ allocated L C /\ allocated L A /\ allocated L B /\ disjoint C A /\ disjoint C B /\
  upd_shapes C A B flags /\ buf_ok L cb mb nb kb p C A B /\
  exists m', armas_update_trm Znum fuel blas2min opt (Some cb) mb nb kb p 1 C 1 A B flags L m = Some (0, m') /\
    ~ updated_trm Znum true (has flags ARMAS_TRANSA) (has flags ARMAS_TRANSB) 1 1 m m' C A B.
Proof.
  exists 10%nat, 2, ARMAS_ORECURSIVE, ge_cb, 64, 64, 160, 8, cp_L, ut_m, ut_C, ut_A, ut_B, ARMAS_UPPER.
  destruct ut_ok as (X1 & X2 & X3 & X4 & X5 & X6 & X7 & X8 & X9).
  split; [lia|]. split; [repeat split; reflexivity|]. split; [reflexivity|].
  repeat (split; [assumption|]). split; [repeat split; reflexivity|]. split; [exact X9|].
  assert (H : match armas_update_trm Znum 10 2 ARMAS_ORECURSIVE (Some ge_cb) 64 64 160 8 1 ut_C 1 ut_A ut_B ARMAS_UPPER cp_L ut_m with
              | Some (r, m') => r = 0 /\ elt m' ut_C 1 1 = 2 | None => False end) by (vm_compute; auto).
  destruct (armas_update_trm Znum 10 2 ARMAS_ORECURSIVE (Some ge_cb) 64 64 160 8 1 ut_C 1 ut_A ut_B ARMAS_UPPER cp_L ut_m) as [[r m']|]; [|contradiction].
  destruct H as (-> & H). exists m'. split; [reflexivity|]. intros V. specialize (V 1 1 ltac:(unfold pos; cbn; lia)).
  rewrite H in V. vm_compute in V. discriminate.
Qed.
Print Assumptions C67_odd_split_refuted.

(* With a recursion limit blas2min of 0 or less the recursion does not end *)
Theorem C67_zero_limit_refuted : forall T (K : num T) fuel blas2min cb mb nb kb p L (m : Z -> T) beta C alpha A B flags,
  blas2min <= 0 -> upd_shapes C A B flags -> armas_size C <> 0 -> armas_size A <> 0 -> armas_size B <> 0 -> wf C ->
  armas_update_trm K fuel blas2min ARMAS_ORECURSIVE (Some cb) mb nb kb p beta C alpha A B flags L m = None.
Proof.
  intros T K fuel blas2min cb mb nb kb p L m beta C alpha A B flags Hb SH S1 S2 S3 (W1 & W2 & _).
  apply Z.eqb_neq in S1, S2, S3. apply upd_ok_eq in SH. unfold armas_update_trm. rewrite S1, S2, S3, SH. cbn [orb negb].
  change (has ARMAS_ORECURSIVE ARMAS_ONAIVE) with false. cbn iota. rewrite Z.eqb_refl.
  set (ch := elem_cache (armas_cache_setup2 cb mb nb kb p) p).
  assert (U : forall d C A B m, 0 <= rows C -> 0 <= cols C ->
    update_upper_recursive K fuel blas2min d beta C alpha A B flags blas2min ch L m = None).
  { clear C A B SH S1 S2 S3 W1 W2 m. intros d. induction d as [|d IH]; intros C A B m W1 W2; [reflexivity|].
    cbn [update_upper_recursive]. cbv zeta. set (n := Z.min (rows C) (cols C)). assert (0 <= n) by (unfold n; Lia.lia). clearbody n.
    assert (0 <= n / 2) by (apply Z.div_pos; Lia.lia).
    replace (n <? blas2min) with false by Lia.lia. replace (n / 2 <? blas2min) with false by Lia.lia.
    rewrite run_bind, IH by (cbn; Lia.lia). reflexivity. }
  assert (V : forall d C A B m, 0 <= rows C -> 0 <= cols C ->
    update_lower_recursive K fuel blas2min d beta C alpha A B flags blas2min ch L m = None).
  { clear C A B SH S1 S2 S3 W1 W2 m. intros d. induction d as [|d IH]; intros C A B m W1 W2; [reflexivity|].
    cbn [update_lower_recursive]. cbv zeta. set (n := Z.min (rows C) (cols C)). assert (0 <= n) by (unfold n; Lia.lia). clearbody n.
    assert (0 <= n / 2) by (apply Z.div_pos; Lia.lia).
    replace (n <? blas2min) with false by Lia.lia. replace (n / 2 <? blas2min) with false by Lia.lia.
    rewrite run_bind, IH by (cbn; Lia.lia). reflexivity. }
  rewrite run_bind. destruct (has flags ARMAS_UPPER); [rewrite U|rewrite V]; auto.
Qed.
Print Assumptions C67_zero_limit_refuted.

(* With an inner dimension of 0 the product is zero and C should become beta*C; it is left as it was *)
Theorem C67_empty_refuted : exists fuel blas2min cb mb nb kb p L m C A B flags,
  wf C /\ wf A /\ wf B /\ allocated L C /\ upd_shapes C A B flags /\ 0 < rows C /\ 0 < cols C /\
  armas_update_trm Znum fuel blas2min 0 (Some cb) mb nb kb p 2 C 1 A B flags L m = Some (0, m) /\
  ~ updated_trm Znum true false false 2 1 m m C A B.
Proof.
  exists 10%nat, 256, ge_cb, 64, 64, 160, 8, cp_L, (fun _ => 1), ut_C, (mkview 200 3 3 0), (mkview 300 1 0 3), ARMAS_UPPER.
  destruct ut_ok as (X1 & _ & _ & X4 & _).
  split; [exact X1|]. split; [unfold wf; cbn; lia|]. split; [unfold wf; cbn; lia|]. split; [exact X4|].
  split; [repeat split; reflexivity|]. split; [reflexivity|]. split; [reflexivity|]. split; [reflexivity|].
  intros V. specialize (V 0 0 ltac:(unfold pos; cbn; lia)). vm_compute in V. discriminate.
Qed.
Print Assumptions C67_empty_refuted.

(* a 3 by 3 rank-one update with the default configuration, upper triangle, and the same with
   the recursive version, lower triangle *)
Example C67_nonvacuous :
  (exists m', armas_update_trm Znum 10 256 0 (Some ge_cb) 64 64 160 8 1 ut_C 5 ut_A ut_B ARMAS_UPPER cp_L ut_m = Some (0, m') /\
     elt m' ut_C 0 2 = 5 /\ elt m' ut_C 1 1 = 5 /\ elt m' ut_C 2 0 = 0) /\
  (exists m', armas_update_trm Znum 10 2 ARMAS_ORECURSIVE (Some ge_cb) 64 64 160 8 1 ut_C 5 ut_A ut_B ARMAS_LOWER cp_L ut_m = Some (0, m') /\
     elt m' ut_C 0 2 = 0 /\ elt m' ut_C 1 1 = 5 /\ elt m' ut_C 2 0 = 5).
Proof.
  destruct ut_ok as (X1 & X2 & X3 & X4 & X5 & X6 & X7 & X8 & X9).
  assert (RU : real_flags ARMAS_UPPER) by (repeat split; reflexivity).
  assert (RL : real_flags ARMAS_LOWER) by (repeat split; reflexivity).
  assert (SU : upd_shapes ut_C ut_A ut_B ARMAS_UPPER) by (repeat split; reflexivity).
  assert (SL : upd_shapes ut_C ut_A ut_B ARMAS_LOWER) by (repeat split; reflexivity).
  assert (NU : if 0 =? ARMAS_ORECURSIVE then exists k q, 0 <= k /\ Z.min (rows ut_C) (cols ut_C) = q * 2 ^ k /\ q < 256
    else NB (armas_cache_setup2 ge_cb 64 64 160 8) < 256) by (vm_compute; reflexivity).
  assert (B1 : 2 <= 256) by lia. assert (B2 : 2 <= 2) by lia.
  assert (P1 : 0 < 3) by lia. assert (P2 : 0 < 1) by lia. assert (P3 : 3 < Z.of_nat 10) by (vm_compute; reflexivity).
  split.
  - destruct (C67_update_trm_upper_partial Z Znum Z_ring Z_eqb 10 256 0 ge_cb 64 64 160 8 cp_L ut_m 1 ut_C 5 ut_A ut_B ARMAS_UPPER
      eq_refl RU B1 NU X1 X2 X3 X4 X5 X6 X7 X8 SU P1 P1 P2 P3 P3 X9) as (m' & E & V & _).
    exists m'. split; [exact E|]. split; [|split]; rewrite V by (unfold pos; cbn; lia); vm_compute; reflexivity.
  - destruct (C67_update_trm_lower Z Znum Z_ring Z_eqb 10 2 ARMAS_ORECURSIVE ge_cb 64 64 160 8 cp_L ut_m 1 ut_C 5 ut_A ut_B ARMAS_LOWER
      eq_refl RL B2 X1 X2 X3 X4 X5 X6 X7 X8 SL P1 P1 P2 P3 P3 X9) as (m' & E & V & _).
    exists m'. split; [exact E|]. split; [|split]; rewrite V by (unfold pos; cbn; lia); vm_compute; reflexivity.
Qed.
