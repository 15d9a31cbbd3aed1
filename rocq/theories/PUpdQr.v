(* PUpdQr.v: applying a block reflector. *)
From Coq Require Import ZArith Lia Bool ZifyBool Ring Field.
From Verif Require Import Mem MView SpecView PView PSub Hoare MFlags MBase MCopy PUpd PCopy
  MNum SpecNum MBlas1 PSum PBlas1 MElem PElem MBlas2 PMvec PBlas2 PFrame SpecTrm MTrm PTrm MGemm PGemm PMatcpy PMult
  MTrsm PTrsm MTrmm PTrmm PNorm MLap PLap MHouse SpecHouse SpecQr PHouse MQr PQrA PQrB
  Properties_Elem Properties_Gemm Properties_Trsm Properties_Trmm.
Local Open Scope Z_scope.
Local Open Scope prog_scope.

Ltac lia := nobool; zlia.

Definition nov : view := mkview 0 0 0 0.

(* a usable configuration *)
Definition cfg_ok (E : lenv) (L : Z -> bool) (cb : cbuf) : Prop :=
  0 <= e_b1 E /\ 2 <= e_b2 E /\ e_cb E = Some cb /\ buf_ok L cb (e_mb E) (e_nb E) (e_kb E) (e_p E) nov nov nov.

(* no element of V in the scratch buffer *)
Definition clear_of (cb : cbuf) (p : Z) (V : view) : Prop := forall a, inbuf cb p a -> ~ cell V a.

Lemma cfg_buf : forall E L cb C A B, cfg_ok E L cb -> clear_of cb (e_p E) C -> clear_of cb (e_p E) A -> clear_of cb (e_p E) B ->
  buf_ok L cb (e_mb E) (e_nb E) (e_kb E) (e_p E) C A B.
Proof.
  intros E L cb C A B (_ & _ & _ & B1 & B2 & B3 & B4 & B5 & B6 & B7 & B8 & B9 & B10 & B11) HC HA HB.
  repeat (split; [assumption|]). split; [|exact B11]. intros a Ha. destruct (B10 a Ha) as (X & _). auto.
Qed.

Lemma size0 : forall V, wf V -> armas_size V = 0 -> rows V = 0 \/ cols V = 0.
Proof. intros V (H1 & H2 & _) H. unfold armas_size in H. apply Z.mul_eq_0. exact H. Qed.

Section U.
  Context {T : Type} (K : num T).
  Hypotheses (HR : is_ring K) (HE : eqb_ok K).
  Let HR' : ring_theory (zero K) (one K) (add K) (mul K) (sub K) (opp K) eq := HR.
  Add Ring KringU : HR'.
  Local Notation "a +' b" := (add K a b) (at level 50, left associativity).
  Local Notation "a -' b" := (sub K a b) (at level 50, left associativity).
  Local Notation "a *' b" := (mul K a b) (at level 40, left associativity).
  Local Notation "0'" := (zero K).
  Local Notation "1'" := (one K).

  Variables (E : lenv) (L : Z -> bool) (cb : cbuf).
  Hypothesis CF : cfg_ok E L cb.
  Local Notation p := (e_p E).
  Local Notation clr := (clear_of cb p).

  Lemma keepb : forall (m m' : Z -> T) X V i j, outb cb p X m m' -> disjoint X V -> clr V -> pos V i j -> elt m' V i j = elt m V i j.
  Proof. intros m m' X V i j H D Hc Hp. unfold elt. assert (cell V (elems V + j * step V + i)) by (exists i, j; auto). apply H; intros Ha; [apply (D _ Ha)|apply (Hc _ Ha)]; auto. Qed.

  (* B := B*op(A) *)
  Lemma trm_right_wp : forall B A flags (m : Z -> T) (Q : Z -> (Z -> T) -> Prop), mok L B -> mok L A -> disjoint B A -> clr B -> clr A ->
    has flags ARMAS_RIGHT = true -> has flags ARMAS_LEFT = false -> has flags ARMAS_LOWER = negb (has flags ARMAS_UPPER) ->
    has flags ARMAS_ABSA = false -> rows B < Z.of_nat (e_fuel E) -> cols B < Z.of_nat (e_fuel E) ->
    rows A = cols A -> cols B = cols A ->
    (forall m', (forall i j, pos B i j -> elt m' B i j = vsum K (cols A) (fun k => elt m B i k *'
         optri K (has flags ARMAS_UPPER) (has flags ARMAS_UNIT) (has flags ARMAS_TRANSA) m A k j)) -> outb cb p B m m' -> Q 0 m') ->
    wp (l_mult_trm K E B 1' A flags) L m Q.
  Proof.
    intros B A flags m Q (WB & LB) (WA & LA) D CB CA F1 F2 F3 F4 R1 R2 Sq En HQ. unfold l_mult_trm.
    pose proof CF as (H1 & H2 & H3 & _). rewrite H3.
    destruct (Z.eq_dec (armas_size B) 0) as [Hz|Hz].
    { exists 0, m. unfold armas_mult_trm. rewrite Hz. cbn [Z.eqb orb]. split; [reflexivity|]. apply HQ; [|intros a _ _; reflexivity].
      intros i j (Hi & Hj). exfalso. apply size0 in Hz; auto. lia. }
    assert (0 < rows B /\ 0 < cols B) as (P1 & P2).
    { destruct WB as (? & ? & _). unfold armas_size in Hz. assert (rows B <> 0) by (intros X; apply Hz; rewrite X; lia).
      assert (cols B <> 0) by (intros X; apply Hz; rewrite X; lia). lia. }
    destruct (has (e_opt E) ARMAS_ONAIVE) eqn:En1.
    - destruct (C78_mult_trm_naive T K HR HE (e_fuel E) (e_b2 E) (e_opt E) (Some cb) (e_mb E) (e_nb E) (e_kb E) p L m B 1' A flags)
        as (m' & X1 & X2 & X3); auto; try (rewrite F1, ?F2; auto).
      exists 0, m'. split; [exact X1|]. apply HQ; [|intros a Ha _; apply X3; auto].
      intros i j Hp. rewrite (X2 i j Hp), F1. ring.
    - destruct (C78_mult_trm_partial T K HR HE (e_fuel E) (e_b2 E) (e_opt E) cb (e_mb E) (e_nb E) (e_kb E) p L m B 1' A flags)
        as (m' & X1 & X2 & X3); auto; try (rewrite F1, ?F2; auto).
      { apply cfg_buf; auto. }
      exists 0, m'. split; [exact X1|]. apply HQ; auto.
      intros i j Hp. rewrite (X2 i j Hp), F1. ring.
  Qed.

  (* C := C + alpha*op(A)*op(B), also for an inner dimension of zero *)
  Lemma mult_gen_wp : forall C alpha A B flags (m : Z -> T) (Q : Z -> (Z -> T) -> Prop), mok L C -> mok L A -> mok L B ->
    disjoint C A -> disjoint C B -> clr C -> clr A -> clr B -> one_op flags -> no_abs flags ->
    rows C = oprows A (trA flags) -> cols C = opcols B (trB flags) -> opcols A (trA flags) = oprows B (trB flags) ->
    (forall m', (forall i j, pos C i j -> elt m' C i j = elt m C i j +' alpha *' vsum K (opcols A (trA flags)) (fun k =>
         opelt m A (trA flags) i k *' opelt m B (trB flags) k j)) -> outb cb p C m m' -> Q 0 m') ->
    wp (l_mult K E 1' C alpha A B flags) L m Q.
  Proof.
    intros C alpha A B flags m Q (WC & LC) (WA & LA) (WB & LB) D1 D2 CC CA CB F1 F2 S1 S2 S3 HQ. unfold l_mult.
    pose proof CF as (H1 & H2 & H3 & _). rewrite H3.
    destruct ((armas_size A =? 0) || (armas_size B =? 0) || (armas_size C =? 0)) eqn:Ez.
    { exists 0, m. unfold armas_mult. rewrite Ez. split; [reflexivity|]. apply HQ; [|intros a _ _; reflexivity].
      intros i j (Hi & Hj). rewrite vsum_0; [ring|].
      assert (Hz : armas_size A = 0 \/ armas_size B = 0 \/ armas_size C = 0) by lia.
      destruct Hz as [Hz|[Hz|Hz]]; apply size0 in Hz; auto; unfold oprows, opcols in *; destruct (trA flags), (trB flags); lia. }
    assert (PA : rows A <> 0 /\ cols A <> 0) by (unfold armas_size in Ez; split; intros X; rewrite X in Ez; rewrite ?Z.mul_0_r, ?Z.mul_0_l in Ez; discriminate).
    assert (PC : rows C <> 0 /\ cols C <> 0) by (unfold armas_size in Ez; split; intros X; rewrite X in Ez; rewrite ?Z.mul_0_r, ?Z.mul_0_l, ?orb_true_r in Ez; discriminate).
    destruct WC as (c1 & c2 & c3). destruct WA as (a1 & a2 & a3).
    destruct (C24_mult_partial T K HR HE L m cb (e_mb E) (e_nb E) (e_kb E) p 1' C alpha A B flags) as (m' & X1 & X2 & X3); auto; try (split; auto; fail); try lia.
    { unfold opcols. destruct (trA flags); lia. }
    { apply cfg_buf; auto. }
    exists 0, m'. split; [exact X1|]. apply HQ; auto. intros i j Hp. rewrite (X2 i j Hp). ring.
  Qed.

  (* A := A - op(B) *)
  Lemma minus_wp : forall A B flags (m : Z -> T) (Q : Z -> (Z -> T) -> Prop), mok L A -> mok L B -> disjoint A B ->
    Z.land flags (ARMAS_LOWER + ARMAS_UPPER) = 0 -> has flags ARMAS_ABSA = false ->
    let tr := has flags (ARMAS_TRANS + ARMAS_TRANSB) in
    rows B = (if tr then cols A else rows A) -> cols B = (if tr then rows A else cols A) ->
    (forall m', (forall i j, pos A i j -> elt m' A i j = elt m A i j -' (if tr then elt m B j i else elt m B i j)) -> only_changes A m m' -> Q 0 m') ->
    wp (armas_mplus K 1' A (opp K 1') B flags) L m Q.
  Proof.
    intros A B flags m Q (WA & LA) (WB & LB) D F1 F2 tr R1 R2 HQ.
    pose proof WA as (a1 & a2 & a3). pose proof WB as (b1 & b2 & b3).
    destruct (Z.eq_dec (armas_size A) 0) as [Hz|Hz].
    { exists 0, m. unfold armas_mplus. rewrite Hz. cbn [Z.eqb orb]. split; [reflexivity|]. apply HQ; [|intros a _; reflexivity].
      intros i j (Hi & Hj). exfalso. apply size0 in Hz; auto. lia. }
    assert (EAB : armas_size A = armas_size B) by (unfold armas_size; rewrite R1, R2; destruct tr; ring).
    destruct (Z.eq_dec (armas_size B) 1) as [H1|H1].
    { assert (O1 : rows A = 1 /\ cols A = 1) by (rewrite <- EAB in H1; unfold armas_size in H1; pose proof (Z.mul_eq_1 _ _ H1) as [X|X]; rewrite X in H1; lia).
      unfold armas_mplus. rewrite EAB, H1. cbn [Z.eqb orb].
      assert (Vb : rows B = 1 /\ cols B = 1) by (destruct tr; lia).
      wbind. apply wp_rd; [apply LB; exists 0, 0; split; [split; lia|cbn; lia]|].
      destruct (C11_madd_vector T K L m A (opp K 1' *' m (elems B + (0 + 0 * step B))) flags) as (m' & X1 & X2 & X3); [exact WA|exact LA|right; apply O1|].
      match goal with |- wp (armas_madd K A ?x flags) L m Q => replace x with (opp K 1' *' m (elems B + (0 + 0 * step B))) end.
      2:{ reflexivity. }
      exists 0, m'. split; [exact X1|]. apply HQ; auto. intros i j (Hi & Hj).
      specialize (X2 0). unfold vlen in X2. destruct O1 as (O1 & O2). rewrite O1, O2 in X2. specialize (X2 ltac:(lia)).
      replace i with 0 by lia. replace j with 0 by lia. unfold velt in X2.
      replace (if tr then elt m B 0 0 else elt m B 0 0) with (m (elems B + (0 + 0 * step B))) by (destruct tr; unfold elt; f_equal; lia).
      assert (EE : forall m : Z -> T, velt m A 0 = elt m A 0 0) by (intros; unfold velt, vec_pos; rewrite O1; reflexivity).
      unfold velt in EE. rewrite <- !EE. rewrite X2. ring. }
    destruct (armas_isvector A && armas_isvector B) eqn:Ev.
    { apply andb_true_iff in Ev as (V1 & V2). apply isvector_isvec in V1, V2.
      destruct (C12_mplus_vectors T K HR L m 1' A (opp K 1') B flags) as (m' & X1 & X2 & X3); auto.
      { unfold vlen. unfold armas_size in *. nia. }
      exists 0, m'. split; [exact X1|]. apply HQ; auto. intros i j (Hi & Hj).
      set (k := if rows A =? 1 then j else i).
      assert (HA : forall m : Z -> T, elt m A i j = velt m A k).
      { intros m2. unfold k, elt, velt, vec_pos. unfold isvec in V1. destruct (rows A =? 1) eqn:E3; cbn [fst snd].
        - replace i with 0 by lia. reflexivity.
        - replace j with 0 by lia. reflexivity. }
      assert (HB : (if tr then elt m B j i else elt m B i j) = velt m B k).
      { unfold k, elt, velt, vec_pos. unfold isvec in V1, V2. unfold armas_size in *. destruct tr, (rows A =? 1) eqn:E3, (rows B =? 1) eqn:E4; cbn [fst snd];
          apply (f_equal m); try replace i with 0 by lia; try replace j with 0 by lia; lia. }
      rewrite !HA, HB, X2; [ring|]. unfold k, vlen. unfold isvec in V1. destruct (rows A =? 1) eqn:E3; [replace (rows A) with 1 by lia|replace (cols A) with 1 by lia]; lia. }
    destruct (C12_mplus_partial T K L m 1' A (opp K 1') B flags) as (m' & X1 & X2 & X3); auto.
    { destruct (Z.eq_dec (rows A) 0) as [X|X]; [exfalso; apply Hz; unfold armas_size; rewrite X; lia|lia]. }
    { destruct (Z.eq_dec (cols A) 0) as [X|X]; [exfalso; apply Hz; unfold armas_size; rewrite X; lia|lia]. }
    { intros (V1 & V2). apply isvector_isvec in V1, V2. rewrite V1, V2 in Ev. discriminate. }
    { rewrite F1. intros [X|X]; discriminate. }
    exists 0, m'. split; [exact X1|]. apply HQ; auto. intros i j Hp. rewrite (X2 i j Hp), F1, F2. fold tr. change (0 =? ARMAS_LOWER) with false.
    change (0 =? ARMAS_UPPER) with false. cbv iota. ring.
  Qed.

  (* ---- block reflectors ---- *)
  Section B.
    Variables (lf : bool) (C1 C2 Y1 Y2 Tv W : view) (n1 n2 nc : Z).
    Hypotheses (OC1 : mok L C1) (OC2 : mok L C2) (OY1 : mok L Y1) (OY2 : mok L Y2) (OT : mok L Tv) (OW : mok L W).
    Hypotheses (cC1 : clr C1) (cC2 : clr C2) (cY1 : clr Y1) (cY2 : clr Y2) (cT : clr Tv) (cW : clr W).
    Hypotheses (D12 : disjoint C1 C2) (D1y1 : disjoint C1 Y1) (D1y2 : disjoint C1 Y2) (D1t : disjoint C1 Tv)
      (D2y1 : disjoint C2 Y1) (D2y2 : disjoint C2 Y2) (D2t : disjoint C2 Tv)
      (DW1 : disjoint W C1) (DW2 : disjoint W C2) (DWy1 : disjoint W Y1) (DWy2 : disjoint W Y2) (DWt : disjoint W Tv).
    Hypotheses (RC1 : if lf then rows C1 = n1 /\ cols C1 = nc else rows C1 = nc /\ cols C1 = n1)
      (RC2 : if lf then rows C2 = n2 /\ cols C2 = nc else rows C2 = nc /\ cols C2 = n2)
      (RY1 : rows Y1 = n1 /\ cols Y1 = n1) (RY2 : rows Y2 = n2 /\ cols Y2 = n1) (RT : rows Tv = n1 /\ cols Tv = n1) (RW : rows W = nc /\ cols W = n1).
    Hypotheses (Hn1 : 0 < n1) (Hn2 : 0 <= n2) (Hnc : 0 <= nc) (F1 : n1 < Z.of_nat (e_fuel E)) (F2 : nc < Z.of_nat (e_fuel E)).

    (* element i of column (left) or row (right) j of the two parts *)
    Definition oel (m : Z -> T) (V : view) (i j : Z) : T := if lf then elt m V i j else elt m V j i.
    Definition stack (m : Z -> T) (i j : Z) : T := if i <? n1 then oel m C1 i j else oel m C2 (i - n1) j.
    (* the matrix that holds the vectors *)
    Definition ystack (m : Z -> T) (i j : Z) : T := if i <? n1 then elt m Y1 i j else elt m Y2 (i - n1) j.

    Lemma y_low : forall m q k, 0 <= k < n1 -> 0 <= q < n1 -> tri K false true m Y1 k q = hvec K (ystack m) q k.
    Proof.
      intros m q k Hk Hq. unfold tri, hvec, ystack. replace (k <? n1) with true by lia. destruct (k =? q) eqn:E1.
      - replace (k <? q) with false by lia. reflexivity.
      - destruct (q <? k) eqn:E2; [replace (k <? q) with false by lia|replace (k <? q) with true by lia]; reflexivity.
    Qed.

    Lemma y_high : forall m q r, 0 <= r -> 0 <= q < n1 -> hvec K (ystack m) q (n1 + r) = elt m Y2 r q.
    Proof.
      intros m q r Hr Hq. unfold hvec, ystack. replace (n1 + r <? q) with false by lia. replace (n1 + r =? q) with false by lia.
      replace (n1 + r <? n1) with false by lia. f_equal. lia.
    Qed.

    Definition upd_prog (transpose : bool) : M T Z :=
      if lf then armas_update_qr_left K E C1 C2 Y1 Y2 Tv W transpose else armas_update_qr_right K E C1 C2 Y1 Y2 Tv W transpose.

    (* C := (I - Y*op(T)*Y^T)*C or C := C*(I - Y*op(T)*Y^T) *)
    Lemma update_wp : forall transpose m (Q : Z -> (Z -> T) -> Prop),
      (forall m', (forall i j, 0 <= i < n1 + n2 -> 0 <= j < nc -> stack m' i j =
           bapply K (n1 + n2) n1 (hvec K (ystack m)) (fun q p => if Bool.eqb transpose lf then tri K true false m Tv p q else tri K true false m Tv q p)
             (fun r => stack m r j) i) ->
         (forall a, ~ cell C1 a -> ~ cell C2 a -> ~ cell W a -> ~ inbuf cb p a -> m' a = m a) -> Q 0 m') ->
      wp (upd_prog transpose) L m Q.
    Proof.
      intros transpose m Q HQ.
      destruct (Z.eq_dec nc 0) as [Z0|Z0].
      { assert (S1 : (armas_size C1 =? 0) && (armas_size C2 =? 0) = true).
        { unfold armas_size. destruct lf; destruct RC1 as (-> & ->), RC2 as (-> & ->); rewrite Z0, ?Z.mul_0_r, ?Z.mul_0_l; reflexivity. }
        exists 0, m. unfold upd_prog, armas_update_qr_left, armas_update_qr_right. rewrite S1. split; [destruct lf; reflexivity|].
        apply HQ; [intros; exfalso; lia|intros; reflexivity]. }
      assert (S1 : (armas_size C1 =? 0) && (armas_size C2 =? 0) = false).
      { unfold armas_size. replace (rows C1 * cols C1 =? 0) with false; [reflexivity|]. symmetry. apply Z.eqb_neq, Z.neq_mul_0. destruct lf; lia. }
      set (flY := Z.lor (Z.lor ARMAS_LOWER ARMAS_UNIT) ARMAS_RIGHT). set (flYt := Z.lor (Z.lor (Z.lor ARMAS_LOWER ARMAS_UNIT) ARMAS_TRANSA) ARMAS_RIGHT).
      set (tt' := Bool.eqb transpose lf).
      set (bits := if tt' then Z.lor ARMAS_UPPER ARMAS_RIGHT else Z.lor (Z.lor ARMAS_UPPER ARMAS_RIGHT) ARMAS_TRANSA).
      set (c := fun j r => stack m r j). set (h := hvec K (ystack m)). set (n := n1 + n2).
      set (g := fun j q => inner K n (h q) (c j)).
      set (Tq := fun q p => if tt' then tri K true false m Tv p q else tri K true false m Tv q p).
      destruct RY1 as (ry1 & ry1'), RY2 as (ry2 & ry2'), RT as (rt & rt'), RW as (rw & rw').
      assert (DC1W : disjoint C1 W) by (intros a X1 X2; apply (DW1 a); auto).
      assert (DC2W : disjoint C2 W) by (intros a X1 X2; apply (DW2 a); auto).
      assert (D21 : disjoint C2 C1) by (intros a X1 X2; apply (D12 a); auto).
      assert (posC1 : forall i j, 0 <= i < n1 -> 0 <= j < nc -> if lf then pos C1 i j else pos C1 j i) by (intros; unfold pos; destruct lf; lia).
      assert (posC2 : forall i j, 0 <= i < n2 -> 0 <= j < nc -> if lf then pos C2 i j else pos C2 j i) by (intros; unfold pos; destruct lf; lia).
      (* everything but the first and the last step, common to both *)
      assert (W1 : wp (if lf then armas_mcopy W C1 ARMAS_TRANS else armas_mcopy W C1 0) L m (fun r m1 => r = 0 /\
        (forall j i, 0 <= i < n1 -> 0 <= j < nc -> elt m1 W j i = oel m C1 i j) /\ only_changes W m m1)).
      { unfold oel. destruct OW as (o1 & o2), OC1 as (o3 & o4). destruct lf.
        - destruct (mcopy_trans_spec L m W C1 ARMAS_TRANS) as (m1 & X1 & X2 & X3); auto; try lia; try reflexivity.
          exists 0, m1. split; [exact X1|]. split; [reflexivity|]. split; [|exact X3]. intros j i Hi Hj. apply X2. split; lia.
        - destruct (mcopy_spec L m W C1 0) as (m1 & X1 & X2 & X3); auto; try lia; try reflexivity.
          exists 0, m1. split; [exact X1|]. split; [reflexivity|]. split; [|exact X3]. intros j i Hi Hj. apply X2. split; lia. }
      assert (W3 : forall m2 (Q : Z -> (Z -> T) -> Prop),
        (forall m3, (forall j q, 0 <= j < nc -> 0 <= q < n1 -> elt m3 W j q = elt m2 W j q +' vsum K n2 (fun r => oel m2 C2 r j *' elt m2 Y2 r q)) ->
           outb cb p W m2 m3 -> Q 0 m3) ->
        wp (if lf then l_mult K E 1' W 1' C2 Y2 ARMAS_TRANSA else l_mult K E 1' W 1' C2 Y2 0) L m2 Q).
      { intros m2 Q2 HQ2. unfold oel in *. destruct lf; apply mult_gen_wp; auto; try (split; reflexivity);
          try (change (trA ARMAS_TRANSA) with true; change (trB ARMAS_TRANSA) with false); try (change (trA 0) with false; change (trB 0) with false);
          unfold oprows, opcols, opelt; cbv iota; try lia; intros m3 X1 X2; apply HQ2; auto; intros j q Hj Hq; rewrite X1 by (split; lia);
          (replace (cols C2) with n2 by lia) || (replace (rows C2) with n2 by lia); ring. }
      assert (W5 : forall m4 (Q : Z -> (Z -> T) -> Prop),
        (forall m5, (forall r j, 0 <= r < n2 -> 0 <= j < nc -> oel m5 C2 r j = oel m4 C2 r j -' vsum K n1 (fun q => elt m4 Y2 r q *' elt m4 W j q)) ->
           outb cb p C2 m4 m5 -> Q 0 m5) ->
        wp (if lf then l_mult K E 1' C2 (opp K 1') Y2 W ARMAS_TRANSB else l_mult K E 1' C2 (opp K 1') W Y2 ARMAS_TRANSB) L m4 Q).
      { intros m4 Q2 HQ2. unfold oel in *. destruct lf; apply mult_gen_wp; auto; try (split; reflexivity);
          change (trA ARMAS_TRANSB) with false; change (trB ARMAS_TRANSB) with true; 
          unfold oprows, opcols, opelt; cbv iota; try lia; intros m5 X1 X2; apply HQ2; auto; intros r j Hr Hj; rewrite X1 by (split; lia).
        - rewrite ry2'. ring.
        - rewrite rw'. rewrite (vsum_ext K n1 (fun k => elt m4 W j k *' elt m4 Y2 r k) (fun q => elt m4 Y2 r q *' elt m4 W j q)) by (intros; ring). ring. }
      assert (W7 : forall m6 (Q : Z -> (Z -> T) -> Prop),
        (forall m7, (forall i j, 0 <= i < n1 -> 0 <= j < nc -> oel m7 C1 i j = oel m6 C1 i j -' elt m6 W j i) -> only_changes C1 m6 m7 -> Q 0 m7) ->
        wp (if lf then armas_mplus K 1' C1 (opp K 1') W ARMAS_TRANSB else armas_mplus K 1' C1 (opp K 1') W 0) L m6 Q).
      { intros m6 Q2 HQ2. unfold oel in *. destruct lf; apply minus_wp; auto;
          try (change (has ARMAS_TRANSB (ARMAS_TRANS + ARMAS_TRANSB)) with true); try (change (has 0 (ARMAS_TRANS + ARMAS_TRANSB)) with false); cbv iota; try lia;
          intros m7 X1 X2; apply HQ2; auto; intros i j Hi Hj; apply X1; split; lia. }
      assert (EP : upd_prog transpose = (
        (if lf then armas_mcopy W C1 ARMAS_TRANS else armas_mcopy W C1 0) ;;
        l_mult_trm K E W 1' Y1 flY ;;
        (if lf then l_mult K E 1' W 1' C2 Y2 ARMAS_TRANSA else l_mult K E 1' W 1' C2 Y2 0) ;;
        l_mult_trm K E W 1' Tv bits ;;
        (if lf then l_mult K E 1' C2 (opp K 1') Y2 W ARMAS_TRANSB else l_mult K E 1' C2 (opp K 1') W Y2 ARMAS_TRANSB) ;;
        l_mult_trm K E W 1' Y1 flYt ;;
        (if lf then armas_mplus K 1' C1 (opp K 1') W ARMAS_TRANSB else armas_mplus K 1' C1 (opp K 1') W 0) ;;
        ret 0)).
      { unfold upd_prog, armas_update_qr_left, armas_update_qr_right. rewrite S1. unfold bits, tt'. destruct lf, transpose; reflexivity. }
      rewrite EP. clear EP. wbind. eapply wp_conseq; [exact W1|]. cbv beta. intros r0 m1 (_ & E1 & O1).
      assert (keep1 : forall V i j, disjoint W V -> pos V i j -> elt m1 V i j = elt m V i j) by (intros V i j X1 X2; apply (elt_keep m m1 V W); auto).
      wbind. apply trm_right_wp; auto; try reflexivity; try lia. change (has flY ARMAS_UPPER) with false. change (has flY ARMAS_UNIT) with true.
      change (has flY ARMAS_TRANSA) with false. rewrite ry1'. unfold optri. intros m2 E2 O2.
      assert (keep2 : forall V i j, disjoint W V -> clr V -> pos V i j -> elt m2 V i j = elt m V i j).
      { intros V i j X1 X2 X3. rewrite (keepb m1 m2 W V); auto. }
      wbind. apply W3. intros m3 E3 O3.
      assert (keep3 : forall V i j, disjoint W V -> clr V -> pos V i j -> elt m3 V i j = elt m V i j).
      { intros V i j X1 X2 X3. rewrite (keepb m2 m3 W V); auto. }
      assert (G3 : forall j q, 0 <= j < nc -> 0 <= q < n1 -> elt m3 W j q = g j q).
      { intros j q Hj Hq. rewrite E3, E2 by (auto; split; lia). unfold g, inner, n. rewrite (vsum_split K HR n1 n2) by lia. f_equal.
        - apply vsum_ext. intros k Hk. rewrite E1 by lia. replace (tri K false true m1 Y1 k q) with (tri K false true m Y1 k q).
          + rewrite y_low by lia. unfold c, stack. replace (k <? n1) with true by lia. fold h. ring.
          + unfold tri. rewrite keep1 by (auto; split; lia). reflexivity.
        - apply vsum_ext. intros k Hk. unfold h. rewrite y_high by lia. unfold c, stack. replace (n1 + k <? n1) with false by lia.
          replace (n1 + k - n1) with k by lia. rewrite (keep2 Y2) by (auto; split; lia).
          replace (oel m2 C2 k j) with (oel m C2 k j); [ring|]. specialize (posC2 k j Hk Hj). unfold oel. destruct lf; symmetry; apply keep2; auto. }
      wbind. apply trm_right_wp; auto; try lia; try (unfold bits; destruct tt'; reflexivity).
      replace (has bits ARMAS_UPPER) with true by (unfold bits; destruct tt'; reflexivity). replace (has bits ARMAS_UNIT) with false by (unfold bits; destruct tt'; reflexivity).
      replace (has bits ARMAS_TRANSA) with (negb tt') by (unfold bits; destruct tt'; reflexivity). rewrite rt'. intros m4 E4 O4.
      assert (keep4 : forall V i j, disjoint W V -> clr V -> pos V i j -> elt m4 V i j = elt m V i j).
      { intros V i j X1 X2 X3. rewrite (keepb m3 m4 W V); auto. }
      assert (G4 : forall j q, 0 <= j < nc -> 0 <= q < n1 -> elt m4 W j q = vsum K n1 (fun k => Tq q k *' g j k)).
      { intros j q Hj Hq. rewrite E4 by (split; lia). apply vsum_ext. intros k Hk. rewrite G3 by auto.
        replace (optri K true false (negb tt') m3 Tv k q) with (Tq q k); [ring|]. unfold Tq, optri, tri. destruct tt'; cbn [negb];
        rewrite (keep3 Tv) by (auto; split; lia); reflexivity. }
      wbind. apply W5. intros m5 E5 O5.
      assert (W45 : forall i j, pos W i j -> elt m5 W i j = elt m4 W i j) by (intros i j X; apply (keepb m4 m5 C2 W); auto).
      wbind. apply trm_right_wp; auto; try reflexivity; try lia. change (has flYt ARMAS_UPPER) with false. change (has flYt ARMAS_UNIT) with true.
      change (has flYt ARMAS_TRANSA) with true. rewrite ry1'. unfold optri. intros m6 E6 O6.
      assert (G6 : forall j i, 0 <= j < nc -> 0 <= i < n1 -> elt m6 W j i = vsum K n1 (fun q => h q i *' vsum K n1 (fun k => Tq q k *' g j k))).
      { intros j i Hj Hi. rewrite E6 by (split; lia). apply vsum_ext. intros q Hq. rewrite W45, G4 by (auto; split; lia).
        replace (tri K false true m5 Y1 i q) with (tri K false true m Y1 i q).
        - rewrite y_low by lia. fold h. ring.
        - unfold tri. rewrite (keepb m4 m5 C2 Y1), keep4 by (auto; split; lia). reflexivity. }
      wbind. apply W7. intros m7 E7 O7. apply wp_ret. apply HQ.
      - fold n h. intros i j Hi Hj. unfold bapply. change (fun r => stack m r j) with (c j).
        unfold stack at 1. destruct (i <? n1) eqn:Ei.
        + rewrite E7, G6 by lia. unfold c at 1, stack. rewrite Ei. f_equal.
          specialize (posC1 i j ltac:(lia) Hj). unfold oel. destruct lf.
          * rewrite (keepb m5 m6 W C1), (keepb m4 m5 C2 C1), keep4; auto.
          * rewrite (keepb m5 m6 W C1), (keepb m4 m5 C2 C1), keep4; auto.
        + specialize (posC2 (i - n1) j ltac:(lia) Hj).
          transitivity (oel m5 C2 (i - n1) j).
          { unfold oel. destruct lf.
            - rewrite (elt_keep m6 m7 C2 C1), (keepb m5 m6 W C2); auto.
            - rewrite (elt_keep m6 m7 C2 C1), (keepb m5 m6 W C2); auto. }
          rewrite E5 by lia. unfold c at 1, stack. rewrite Ei. f_equal.
          * unfold oel. destruct lf; apply keep4; auto.
          * apply vsum_ext. intros q Hq. rewrite keep4 by (auto; split; lia). rewrite G4 by lia. unfold h. rewrite <- (y_high m q (i - n1)) by lia.
            replace (n1 + (i - n1)) with i by lia. reflexivity.
      - intros a A1 A2 A3 A4. rewrite O7, O6, O5, O4, O3, O2, O1; auto.
    Qed.
  End B.
End U.
