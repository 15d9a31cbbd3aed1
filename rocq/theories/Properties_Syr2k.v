(* Properties_Syr2k.v: C85 symmetric rank-2k update (armas_update2_sym). *)
From Coq Require Import ZArith Lia Bool ZifyBool Ring.
From Verif Require Import Mem MView SpecView PView PSub Hoare MFlags MBase MCopy PUpd PCopy Properties_Copy
  MNum SpecNum MBlas1 PSum PBlas1 Inst MElem PElem MBlas2 PMvec PBlas2
  PFrame SpecTrm MTrm PTrm MGemm PGemm PMatcpy PMult Properties_Gemm MTrsm PTrsm Properties_Trsm MSym PSym MUpdTrm MLap PLap MSyr2k PSyr2k.
Local Open Scope Z_scope.
Local Open Scope prog_scope.
Ltac lia := zonly; zlia.

(* C' = beta*C + alpha*(op(A)*op(B)^T + op(B)*op(A)^T) in the upper (lower) triangle, C elsewhere *)
Definition updated2 {T} (K : num T) (up t : bool) (beta alpha : T) (m m' : Z -> T) (C A B : view) : Prop :=
  forall i j, pos C i j -> elt m' C i j =
    if (if up then i <=? j else j <=? i) then
      add K (mul K beta (elt m C i j)) (mul K alpha
        (add K (vsum K (opcols A t) (fun k => mul K (opelt m A t i k) (opelt m B t j k)))
               (vsum K (opcols A t) (fun k => mul K (opelt m B t i k) (opelt m A t j k)))))
    else elt m C i j.

(* C is square, A and B have the same shape and op(A) has as many rows as C *)
Definition shapes2 (C A B : view) (t : bool) : Prop :=
  rows C = cols C /\ rows A = rows B /\ cols A = cols B /\ rows C = oprows A t.

Lemma syr2k_ok_eq : forall C A B flags, syr2k_ok C A B flags = true <-> shapes2 C A B (has flags ARMAS_TRANS).
Proof.
  intros C A B flags. unfold syr2k_ok, shapes2, oprows. destruct (has flags ARMAS_TRANS); rewrite !andb_true_iff, !Z.eqb_eq; tauto.
Qed.

(* ARMAS_TRANS chooses the transposed form, ARMAS_UPPER the upper triangle, otherwise it is the
   lower one; the other triangle need not even be accessible *)
Theorem C85_update2_sym_partial : forall T (K : num T), is_ring K -> eqb_ok K ->
  forall E L (m : Z -> T) beta C alpha A B flags,
    let up := has flags ARMAS_UPPER in let t := has flags ARMAS_TRANS in
    0 <= e_b1 E -> e_b2 E = 0 \/ 2 <= e_b2 E -> rows C < Z.of_nat (e_fuel E) -> opcols A t < Z.of_nat (e_fuel E) ->
    wf C -> wf A -> wf B -> tri_allocated L up C -> allocated L A -> allocated L B -> disjoint C A -> disjoint C B ->
    shapes2 C A B t -> 0 < rows C -> 0 < opcols A t ->
    (has (e_opt E) ARMAS_ONAIVE = true \/
     2 <= e_lb E /\ exists cb, e_cb E = Some cb /\ buf_ok L cb (e_mb E) (e_nb E) (e_kb E) (e_p E) C A B) ->
    exists m', armas_update2_sym K E beta C alpha A B flags L m = Some (0, m') /\
      updated2 K up t beta alpha m m' C A B /\
      (forall a, ~ cell C a ->
         (forall cb, has (e_opt E) ARMAS_ONAIVE = false -> e_cb E = Some cb -> ~ inbuf cb (e_p E) a) -> m' a = m a).
Proof.
  intros T K HR HE E L m beta C alpha A B flags up t Hb1 Hb2 F1 F2 WC WA WB LC LA LB DA DB (S1 & S2 & S3 & S4) P1 P2 HP.
  assert (HR' : ring_theory (zero K) (one K) (add K) (mul K) (sub K) (opp K) eq) by exact HR.
  assert (SO : syr2k_ok C A B flags = true) by (apply syr2k_ok_eq; repeat split; auto).
  assert (SX : if t then rows A = opcols A t /\ cols A = rows C else rows A = rows C /\ cols A = opcols A t)
    by (unfold oprows, opcols in *; destruct t; auto).
  assert (SY : if t then rows B = opcols A t /\ cols B = rows C else rows B = rows C /\ cols B = opcols A t)
    by (unfold oprows, opcols in *; destruct t; lia).
  assert (SZ : (armas_size C =? 0) || (armas_size A =? 0) || (armas_size B =? 0) = false).
  { rewrite !orb_false_iff. unfold armas_size. clear - S1 P1 P2 SX SY.
    repeat split; apply Z.eqb_neq, Z.neq_mul_0; destruct t; lia. }
  set (P := opcols A t) in *.
  assert (FIN : forall m', (forall i j, pos C i j -> elt m' C i j =
       if (if up then i <=? j else j <=? i) then fin K A B C alpha beta P t m i j else elt m C i j) ->
       updated2 K up t beta alpha m m' C A B).
  { intros m' V i j Hij. rewrite V by auto. destruct (if up then i <=? j else j <=? i); [|reflexivity].
    unfold fin, ov, opelt. fold P. rewrite (Rmul_comm HR' _ beta), (Rmul_comm HR' _ alpha). reflexivity. }
  unfold armas_update2_sym. rewrite SZ, SO. cbn [negb]. fold t.
  destruct (has (e_opt E) ARMAS_ONAIVE) eqn:EO.
  - assert (W : wp (update_syr2k_unb K E t beta C alpha A B flags) L m (fun _ m' => updated2 K up t beta alpha m m' C A B /\
      forall a, ~ cell C a -> m' a = m a)).
    { destruct (opv_all E A B C P (rows C) t eq_refl (eq_sym S1) SX SY P2 F1 F2) as (Q1 & Q2 & Q3).
      apply (fills_wp K L A B C alpha beta flags P (rows C) t (fun _ => False) m eq_refl (eq_sym S1) (conj WC LC)).
      - pose proof (unb_fills K HR HE E L A B C alpha beta flags P (rows C) t (fun _ => False) m eq_refl (eq_sym S1) (conj WC LC) (conj WA LA) (conj WB LB) DA DB
          (fun _ f => match f with end) (fun _ f => match f with end) (fun _ f => match f with end) SX SY P2 Hb1 Hb2 F1 F2 0 (rows C)) as U.
        rewrite Q1, Q2, Q3 in U. apply U; lia.
      - intros m' V F. split; [apply FIN, V|]. intros a Ha. apply F; auto. }
    destruct W as ([] & m' & E1 & V & F). exists m'. rewrite run_bind, E1. split; [reflexivity|]. split; auto.
  - destruct HP as [?|(Hlb & cb & Ecb & BO)]; [discriminate|]. rewrite Ecb.
    destruct (buf_facts L cb _ _ _ _ C A B BO) as (RBk & OK & IA & IB). pose proof (setup_rb _ _ _ _ _ _ _ _ _ BO) as RM.
    pose proof BO as (_ & _ & _ & _ & _ & _ & _ & _ & _ & B10 & _).
    assert (RM' : rb (elem_cache (armas_cache_setup2 cb (e_mb E) (e_nb E) (e_kb E) (e_p E)) (e_p E)) <=
      MB (elem_cache (armas_cache_setup2 cb (e_mb E) (e_nb E) (e_kb E) (e_p E)) (e_p E))) by exact RM. clear RM.
    set (ch := elem_cache (armas_cache_setup2 cb (e_mb E) (e_nb E) (e_kb E) (e_p E)) (e_p E)) in *. clearbody ch.
    assert (N1 : forall a, inbuf cb (e_p E) a -> ~ cell A a) by (intros a Ha; apply B10 in Ha; tauto).
    assert (N2 : forall a, inbuf cb (e_p E) a -> ~ cell B a) by (intros a Ha; apply B10 in Ha; tauto).
    assert (N3 : forall a, inbuf cb (e_p E) a -> ~ cell C a) by (intros a Ha; apply B10 in Ha; tauto).
    assert (W : wp (update_syr2k_recursive K E (e_fuel E) t beta C alpha A B flags (e_lb E) ch) L m (fun _ m' => updated2 K up t beta alpha m m' C A B /\
      forall a, ~ cell C a -> ~ inbuf cb (e_p E) a -> m' a = m a)).
    { destruct (opv_all E A B C P (rows C) t eq_refl (eq_sym S1) SX SY P2 F1 F2) as (Q1 & Q2 & Q3).
      apply (fills_wp K L A B C alpha beta flags P (rows C) t (inbuf cb (e_p E)) m eq_refl (eq_sym S1) (conj WC LC)).
      - pose proof (rec_fills K HR HE E L A B C alpha beta flags P (rows C) t (inbuf cb (e_p E)) m eq_refl (eq_sym S1) (conj WC LC) (conj WA LA) (conj WB LB) DA DB
          N1 N2 N3 SX SY P2 Hb1 Hb2 F1 F2 ch OK (conj RBk RM') IA IB (e_lb E) Hlb (e_fuel E) 0 (rows C)) as U.
        rewrite Q1, Q2, Q3 in U. apply U; lia.
      - intros m' V F. split; [apply FIN, V|]. intros a Ha. apply F; auto. }
    destruct W as ([] & m' & E1 & V & F). exists m'. rewrite run_bind, E1. split; [reflexivity|]. split; auto.
Qed.
Print Assumptions C85_update2_sym_partial.

(* sizes that do not fit and a missing scratch buffer *)
Theorem C85_update2_sym_errors : forall T (K : num T) E L (m : Z -> T) beta C alpha A B flags,
  armas_size C <> 0 -> armas_size A <> 0 -> armas_size B <> 0 ->
  (~ shapes2 C A B (has flags ARMAS_TRANS) -> armas_update2_sym K E beta C alpha A B flags L m = Some (-1, m)) /\
  (shapes2 C A B (has flags ARMAS_TRANS) -> has (e_opt E) ARMAS_ONAIVE = false -> e_cb E = None ->
     armas_update2_sym K E beta C alpha A B flags L m = Some (- ARMAS_EMEMORY, m)).
Proof.
  intros T K E L m beta C alpha A B flags H1 H2 H3. apply Z.eqb_neq in H1, H2, H3.
  unfold armas_update2_sym. rewrite H1, H2, H3. cbn [orb]. pose proof (syr2k_ok_eq C A B flags) as SO. split.
  - intros H. destruct (syr2k_ok C A B flags); [|reflexivity]. exfalso. apply H, SO. reflexivity.
  - intros H EO Ec. rewrite (proj2 SO H), EO, Ec. reflexivity.
Qed.
Print Assumptions C85_update2_sym_errors.

(* ---- where the claim fails ---- *)

(* With a block size lb of 1 or less the recursion does not end *)
Theorem C85_small_limit_refuted : forall T (K : num T) E L (m : Z -> T) beta C alpha A B flags cb,
  e_lb E <= 1 -> e_cb E = Some cb -> has (e_opt E) ARMAS_ONAIVE = false ->
  shapes2 C A B (has flags ARMAS_TRANS) -> armas_size C <> 0 -> armas_size A <> 0 -> armas_size B <> 0 -> wf C ->
  armas_update2_sym K E beta C alpha A B flags L m = None.
Proof.
  intros T K E L m beta C alpha A B flags cb Hlb Ec EO SH H1 H2 H3 (W1 & W2 & _).
  assert (P1 : 1 <= rows C) by (unfold armas_size in H1; nia).
  apply Z.eqb_neq in H1, H2, H3. apply syr2k_ok_eq in SH.
  unfold armas_update2_sym. rewrite H1, H2, H3, SH, EO, Ec. cbn [orb negb].
  set (ch := elem_cache _ _). clearbody ch. set (t := has flags ARMAS_TRANS). clearbody t.
  assert (U : forall d C A B m, 1 <= rows C -> update_syr2k_recursive K E d t beta C alpha A B flags (e_lb E) ch L m = None).
  { clear C A B SH H1 H2 H3 W1 W2 P1 m. intros d. induction d as [|d IH]; intros C A B m HC; [reflexivity|].
    cbn [update_syr2k_recursive]. replace (rows C <? e_lb E) with false by (clear - HC Hlb; Lia.lia). cbv zeta.
    destruct (sk_partition t A (rows C / 2)) as [XT XB]. destruct (sk_partition t B (rows C / 2)) as [YT YB].
    unfold mat_partition_2x2. cbn [ATL ATR ABL ABR].
    assert (HB : 1 <= rows C - rows C / 2) by (pose proof (Z.div_lt (rows C) 2); pose proof (Z.div_pos (rows C) 2); Lia.lia).
    rewrite run_bind. match goal with |- match ?x with _ => _ end = _ => destruct x as [[u m1]|]; [|reflexivity] end.
    rewrite run_bind. match goal with |- match ?x with _ => _ end = _ => destruct x as [[u2 m2]|]; [|reflexivity] end.
    apply IH. exact HB. }
  rewrite run_bind, U by exact P1. reflexivity.
Qed.
Print Assumptions C85_small_limit_refuted.

Definition s2_C : view := mkview 100 5 5 5.
Definition s2_A : view := mkview 200 5 5 3.
Definition s2_B : view := mkview 300 6 5 3.
Definition s2_E (opt lb : Z) : lenv := mklenv 20 1024 256 opt (Some ge_cb) 64 64 160 8 lb.

(* With an inner dimension of 0 the product is zero and C should become beta*C; it is left as it was *)
Theorem C85_empty_refuted : exists E L m C A B,
  wf C /\ wf A /\ wf B /\ allocated L C /\ shapes2 C A B false /\ 0 < rows C /\ e_lb E = 64 /\
  armas_update2_sym Znum E 2 C 1 A B ARMAS_UPPER L m = Some (0, m) /\
  ~ updated2 Znum true false 2 1 m m C A B.
Proof.
  exists (s2_E 0 64), cp_L, (fun _ => 1), s2_C, (mkview 200 5 5 0), (mkview 300 5 5 0).
  destruct (ge_ok 5 5 5 5 3 5 5 3 6) as (X1 & X2 & X3 & X4 & X5 & X6 & X7 & X8 & X9); try Lia.lia.
  split; [exact X1|]. split; [unfold wf; cbn; Lia.lia|]. split; [unfold wf; cbn; Lia.lia|]. split; [exact X4|].
  split; [repeat split; reflexivity|]. split; [reflexivity|]. split; [reflexivity|]. split; [reflexivity|].
  intros V. specialize (V 0 0 ltac:(unfold pos; cbn; Lia.lia)). vm_compute in V. discriminate.
Qed.
Print Assumptions C85_empty_refuted.

(* 5 by 5, recursion down to single elements, upper triangle; the elements below the diagonal are
   not accessible *)
Definition s2_L (a : Z) : bool := if (100 <=? a) && (a <? 125) then (a - 100) mod 5 <=? (a - 100) / 5 else cp_L a.
Example C85_nonvacuous :
  exists m', armas_update2_sym Znum (s2_E 0 2) 2 s2_C 3 s2_A s2_B ARMAS_UPPER s2_L (fun a => a) = Some (0, m') /\
    updated2 Znum true false 2 3 (fun a => a) m' s2_C s2_A s2_B /\ elt m' s2_C 1 3 <> elt (fun a => a) s2_C 1 3.
Proof.
  destruct (ge_ok 5 5 5 5 3 5 5 3 6) as (X1 & X2 & X3 & X4 & X5 & X6 & X7 & X8 & X9); try Lia.lia.
  assert (AL : forall a, ~ (100 <= a < 125) -> s2_L a = cp_L a).
  { intros a Ha. unfold s2_L. replace ((100 <=? a) && (a <? 125)) with false by Lia.lia. reflexivity. }
  assert (N : forall e s r c a, 125 <= e -> 0 <= s -> cell (mkview e s r c) a -> ~ (100 <= a < 125)).
  { intros e s r c a He Hs (i & j & (Hi & Hj) & ->). cbn in *. nia. }
  assert (T1 : tri_allocated s2_L (has ARMAS_UPPER ARMAS_UPPER) s2_C).
  { change (has ARMAS_UPPER ARMAS_UPPER) with true. intros a (i & j & (Hi & Hj) & Hin & ->). unfold s2_C, intri in *. cbn [rows cols elems step] in *. unfold s2_L.
    replace (100 + j * 5 + i - 100) with (i + j * 5) by ring. rewrite Z.mod_add, Z.div_add, Z.mod_small, Z.div_small by Lia.lia.
    replace ((100 <=? 100 + j * 5 + i) && (100 + j * 5 + i <? 125)) with true by Lia.lia. Lia.lia. }
  assert (T2 : allocated s2_L s2_A).
  { intros a Ha. rewrite AL; [apply X5, Ha|]. apply (N 200 5 5 3); try Lia.lia; auto. }
  assert (T3 : allocated s2_L s2_B).
  { intros a Ha. rewrite AL; [apply X6, Ha|]. apply (N 300 6 5 3); try Lia.lia; auto. }
  assert (T4 : shapes2 s2_C s2_A s2_B (has ARMAS_UPPER ARMAS_TRANS)) by (repeat split; reflexivity).
  assert (T5 : buf_ok s2_L ge_cb 64 64 160 8 s2_C s2_A s2_B).
  { unfold buf_ok. do 9 (split; [first [reflexivity|cbn; Lia.lia]|]). split; [|vm_compute; repeat split; discriminate].
    intros a Ha. destruct (X9 a Ha) as (Z1 & Z2). split; [|exact Z2]. rewrite AL; [exact Z1|]. destruct Ha as (Ha & _). cbn in Ha. Lia.lia. }
  assert (B1 : 0 <= 1024) by Lia.lia. assert (B2 : 256 = 0 \/ 2 <= 256) by Lia.lia. assert (F1 : 5 < Z.of_nat 20) by reflexivity.
  assert (F2 : 3 < Z.of_nat 20) by reflexivity. assert (P1 : 0 < 5) by Lia.lia. assert (P2 : 0 < 3) by Lia.lia.
  assert (H : has (e_opt (s2_E 0 2)) ARMAS_ONAIVE = true \/ 2 <= e_lb (s2_E 0 2) /\ exists cb, e_cb (s2_E 0 2) = Some cb /\
    buf_ok s2_L cb (e_mb (s2_E 0 2)) (e_nb (s2_E 0 2)) (e_kb (s2_E 0 2)) (e_p (s2_E 0 2)) s2_C s2_A s2_B).
  { right. split; [cbn; Lia.lia|]. exists ge_cb. split; [reflexivity|exact T5]. }
  destruct (C85_update2_sym_partial Z Znum Z_ring Z_eqb (s2_E 0 2) s2_L (fun a => a) 2 s2_C 3 s2_A s2_B ARMAS_UPPER
    B1 B2 F1 F2 X1 X2 X3 T1 T2 T3 X7 X8 T4 P1 P2 H) as (m' & E1 & V & _).
  exists m'. split; [exact E1|]. split; [exact V|]. rewrite V by (unfold pos; cbn; Lia.lia). vm_compute. discriminate.
Qed.
