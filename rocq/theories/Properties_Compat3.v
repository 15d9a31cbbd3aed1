(* Properties_Compat3.v: C86 the BLAS and CBLAS names of the matrix products and symmetric updates. *)
From Coq Require Import ZArith Lia Bool ZifyBool Ring.
From Verif Require Import Mem MView SpecView PView PSub Hoare MFlags MBase MCopy PUpd PCopy Properties_Copy
  MNum SpecNum MBlas1 PSum PBlas1 Inst MElem PElem MBlas2 PMvec PBlas2
  PFrame SpecTrm MTrm PTrm MGemm PGemm PMatcpy PMult Properties_Gemm MTrsm MTrmm MSym MSymm MUpdTrm MLap MSyr2k
  Properties_Symm Properties_UpdTrm Properties_Syr2k SpecBlas MCompat3.
Local Open Scope Z_scope.
Local Open Scope prog_scope.
Ltac lia := Lia.lia.

(* a scratch buffer as every thread has, away from the matrices at C, A and B *)
Definition has_buf (L : Z -> bool) (E : lenv) (cb : cbuf) (C A B : view) : Prop :=
  e_cb E = Some cb /\ buf_ok L cb (e_mb E) (e_nb E) (e_kb E) (e_p E) C A B.

(* the arguments of a GEMM call: op(A) is m by k, op(B) is k by n, the leading dimensions are large
   enough, the memory is accessible and C overlaps neither A nor B *)
Definition gemm_args (L : Z -> bool) (E : lenv) (cb : cbuf) (row ta tb : bool) (m n k A lda B ldb C ldc : Z) : Prop :=
  let Cv := place row C ldc m n in let Av := oplace row ta A lda m k in let Bv := oplace row tb B ldb k n in
  0 < m /\ 0 < n /\ 0 < k /\ wf Cv /\ wf Av /\ wf Bv /\ allocated L Cv /\ allocated L Av /\ allocated L Bv /\
  disjoint Cv Av /\ disjoint Cv Bv /\ has_buf L E cb Cv Av Bv.

Lemma upper_of : forall c up, 65 <= up <= 90 -> letter c up (up + 32) -> toupper c = up.
Proof.
  intros c up H [->| ->]; unfold toupper.
  - replace ((97 <=? up) && (up <=? 122)) with false by lia. reflexivity.
  - replace ((97 <=? up + 32) && (up + 32 <=? 122)) with true by lia. lia.
Qed.

Lemma tr_flags : forall ta tb, let f := Z.lor (flag ta ARMAS_TRANSA) (flag tb ARMAS_TRANSB) in
  trA f = ta /\ trB f = tb /\ one_op f /\ no_abs f.
Proof. intros [] []; repeat split; reflexivity. Qed.

Lemma drop_run : forall T (c : M T Z) L m r m', c L m = Some (r, m') -> drop c L m = Some (tt, m').
Proof. intros T c L m r m' H. unfold drop. rewrite run_bind, H. reflexivity. Qed.

Section S.
  Context {T : Type} (K : num T).
  Hypotheses (HR : is_ring K) (HE : eqb_ok K).
  Let HR' : ring_theory (zero K) (one K) (add K) (mul K) (sub K) (opp K) eq := HR.
  Add Ring KringC3 : HR'.

  Lemma gemm_col : forall E cb L (mem : Z -> T) ta tb m n k alpha A lda B ldb beta C ldc,
    gemm_args L E cb false ta tb m n k A lda B ldb C ldc ->
    exists mem', drop (armas_mult K (e_cb E) (e_mb E) (e_nb E) (e_kb E) (e_p E) beta (armas_make m n ldc C) alpha
        (if ta then armas_make k m lda A else armas_make m k lda A) (if tb then armas_make n k ldb B else armas_make k n ldb B)
        (Z.lor (flag ta ARMAS_TRANSA) (flag tb ARMAS_TRANSB))) L mem = Some (tt, mem') /\
      gemm_done K false ta tb m n k alpha A lda B ldb beta C ldc mem mem' /\
      (forall a, ~ cell (place false C ldc m n) a -> ~ inbuf cb (e_p E) a -> mem' a = mem a).
  Proof.
    intros E cb L mem ta tb m n k alpha A lda B ldb beta C ldc H.
    destruct H as (P1 & P2 & P3 & WC & WA & WB & LC & LA & LB & DA & DB & -> & BO).
    destruct (tr_flags ta tb) as (F1 & F2 & F3 & F4). set (f := Z.lor _ _) in *.
    assert (EA : (if ta then armas_make k m lda A else armas_make m k lda A) = oplace false ta A lda m k) by (destruct ta; reflexivity).
    assert (EB : (if tb then armas_make n k ldb B else armas_make k n ldb B) = oplace false tb B ldb k n) by (destruct tb; reflexivity).
    assert (SA : oprows (oplace false ta A lda m k) ta = m /\ opcols (oplace false ta A lda m k) ta = k) by (destruct ta; split; reflexivity).
    assert (SB : oprows (oplace false tb B ldb k n) tb = k /\ opcols (oplace false tb B ldb k n) tb = n) by (destruct tb; split; reflexivity).
    destruct SA as (SA1 & SA2). destruct SB as (SB1 & SB2).
    rewrite EA, EB.
    destruct (C24_mult_partial T K HR HE L mem cb (e_mb E) (e_nb E) (e_kb E) (e_p E) beta (place false C ldc m n) alpha
      (oplace false ta A lda m k) (oplace false tb B ldb k n) f) as (mem' & R & V & O); auto;
      rewrite ?F1, ?F2, ?SA1, ?SA2, ?SB1, ?SB2; auto.
    exists mem'. split; [exact (drop_run _ _ _ _ _ _ R)|]. split; [|exact O].
    intros i j Hi Hj. specialize (V i j (conj Hi Hj)). rewrite F1, F2, SA2 in V.
    refine (eq_trans V _). f_equal. f_equal. apply vsum_ext. intros l Hl. destruct ta, tb; reflexivity.
  Qed.

  Lemma gemm_esize : forall E L (mem : Z -> T) cb ta tb beta alpha C A B, let f := Z.lor (flag ta ARMAS_TRANSA) (flag tb ARMAS_TRANSB) in
    0 < rows C -> 0 < cols C -> 0 < rows A -> 0 < cols A -> 0 < rows B -> 0 < cols B ->
    ~ (rows C = oprows A ta /\ cols C = opcols B tb /\ opcols A ta = oprows B tb) ->
    drop (armas_mult K cb (e_mb E) (e_nb E) (e_kb E) (e_p E) beta C alpha A B f) L mem = Some (tt, mem).
  Proof.
    intros E L mem cb ta tb beta alpha C A B f P1 P2 P3 P4 P5 P6 H. destruct (tr_flags ta tb) as (F1 & F2 & F3 & _). fold f in F1, F2, F3.
    apply (drop_run _ _ _ _ (- ARMAS_ESIZE)).
    destruct (C24_mult_errors T K L mem cb (e_mb E) (e_nb E) (e_kb E) (e_p E) beta C alpha A B f) as (X & _); auto;
      try (unfold armas_size; nia). rewrite F1, F2 in X. auto.
  Qed.
End S.

(* ---- xGEMM, Fortran interface ---- *)

(* Missing: TRANSA = 'T' with m <> k, TRANSB = 'T' with k <> n (C86_dgemm_trans_refuted), 'C'
   (C86_dgemm_conj_refuted) and k = 0 (C24_empty_refuted) *)
Theorem C86_dgemm_partial : forall T (K : num T), is_ring K -> eqb_ok K ->
  forall E cb L (mem : Z -> T) transa transb ta tb m n k alpha A lda B ldb beta C ldc,
    trans_is transa ta -> trans_is transb tb -> ~ letter transa 67 99 -> ~ letter transb 67 99 ->
    (ta = true -> m = k) -> (tb = true -> k = n) ->
    gemm_args L E cb false ta tb m n k A lda B ldb C ldc ->
    exists mem', blas_gemmf K E transa transb m n k alpha A lda B ldb beta C ldc L mem = Some (tt, mem') /\
      gemm_done K false ta tb m n k alpha A lda B ldb beta C ldc mem mem' /\
      (forall a, ~ cell (place false C ldc m n) a -> ~ inbuf cb (e_p E) a -> mem' a = mem a).
Proof.
  intros T K HR HE E cb L mem transa transb ta tb m n k alpha A lda B ldb beta C ldc Ta Tb Na Nb Sa Sb H.
  assert (X : forall c t, trans_is c t -> ~ letter c 67 99 -> (toupper c =? chr_T) = t).
  { intros c t Ht Hn. destruct t; cbn [trans_is] in Ht.
    - destruct Ht as [Ht|Ht]; [|tauto]. rewrite (upper_of c 84) by (lia || exact Ht). reflexivity.
    - rewrite (upper_of c 78) by (lia || exact Ht). reflexivity. }
  unfold blas_gemmf. rewrite (X transa ta), (X transb tb) by auto.
  assert (EA : armas_make m k lda A = if ta then armas_make k m lda A else armas_make m k lda A) by (destruct ta; [rewrite Sa by auto|]; reflexivity).
  assert (EB : armas_make k n ldb B = if tb then armas_make n k ldb B else armas_make k n ldb B) by (destruct tb; [rewrite Sb by auto|]; reflexivity).
  rewrite EA, EB. apply gemm_col; auto.
Qed.
Print Assumptions C86_dgemm_partial.

(* 'T' for an operand that is not square: nothing is computed, whatever the arguments *)
Theorem C86_dgemm_trans_refuted : forall T (K : num T) E L (mem : Z -> T) transa transb m n k alpha A lda B ldb beta C ldc,
  0 < m -> 0 < n -> 0 < k ->
  letter transa 84 116 /\ m <> k \/ letter transb 84 116 /\ k <> n ->
  blas_gemmf K E transa transb m n k alpha A lda B ldb beta C ldc L mem = Some (tt, mem).
Proof.
  intros T K E L mem transa transb m n k alpha A lda B ldb beta C ldc P1 P2 P3 H. unfold blas_gemmf.
  apply gemm_esize; cbn [rows cols armas_make]; auto. unfold oprows, opcols. cbn [rows cols armas_make].
  destruct H as [(H & N)|(H & N)]; rewrite (upper_of _ 84 ltac:(lia) H); change (84 =? chr_T) with true; cbv iota; lia.
Qed.
Print Assumptions C86_dgemm_trans_refuted.

(* samples: matrices at 100, 200 and 300, row stride s *)
Definition c3_E : lenv := mklenv 20 1024 256 0 (Some ge_cb) 64 64 160 8 64.
Lemma c3_buf : forall C A B, (forall a, inbuf ge_cb 8 a -> cp_L a = true /\ ~ cell C a /\ ~ cell A a /\ ~ cell B a) -> has_buf cp_L c3_E ge_cb C A B.
Proof.
  intros C A B H. split; [reflexivity|]. unfold buf_ok. cbn [c3_E e_mb e_nb e_kb e_p].
  repeat (split; [first [exact H|reflexivity|cbn; lia]|]). vm_compute. repeat split; discriminate.
Qed.
Lemma c3_args : forall row ta tb m n k s, 0 < m <= s -> 0 < n <= s -> 0 < k <= s -> s <= 10 ->
  gemm_args cp_L c3_E ge_cb row ta tb m n k 200 s 300 s 100 s.
Proof.
  intros row ta tb m n k s H1 H2 H3 Hs.
  assert (O : forall row t a ld r c, oplace row t a ld r c = if xorb row t then mkview a ld c r else mkview a ld r c)
    by (intros [] []; reflexivity).
  pose (f := fun b x y : Z => if Z.eqb b 0 then x else y).
  assert (X : forall rc cc ra ca rb cb, 0 < rc <= s -> 0 < cc <= s -> 0 < ra <= s -> 0 < ca <= s -> 0 < rb <= s -> 0 < cb <= s ->
    let Cv := mkview 100 s rc cc in let Av := mkview 200 s ra ca in let Bv := mkview 300 s rb cb in
    wf Cv /\ wf Av /\ wf Bv /\ allocated cp_L Cv /\ allocated cp_L Av /\ allocated cp_L Bv /\
    disjoint Cv Av /\ disjoint Cv Bv /\ has_buf cp_L c3_E ge_cb Cv Av Bv).
  { intros rc cc ra ca rb cb Hrc Hcc Hra Hca Hrb Hcb Cv Av Bv.
    destruct (ge_ok rc cc s ra ca s rb cb s) as (X1 & X2 & X3 & X4 & X5 & X6 & X7 & X8 & X9); try lia; try nia.
    repeat (split; [assumption|]). apply c3_buf. exact X9. }
  unfold gemm_args. rewrite !O. unfold place.
  destruct row, ta, tb; cbn [xorb]; (split; [lia|]; split; [lia|]; split; [lia|]; apply X; lia).
Qed.

Ltac atc V := match type of V with ?f ?x = _ => let y := eval vm_compute in x in change (f x) with (f y) in V end.
Ltac badc i j := intros V; specialize (V i j ltac:(lia) ltac:(lia)); vm_compute in V; discriminate.

(* 2 by 2 += (3 by 2)^T (3 by 2) *)
Theorem C86_dgemm_trans_sample_refuted : exists E cb L (mem : Z -> Z) m n k A lda B ldb C ldc,
  gemm_args L E cb false true false m n k A lda B ldb C ldc /\
  blas_gemmf Znum E 84 78 m n k 1 A lda B ldb 0 C ldc L mem = Some (tt, mem) /\
  ~ gemm_done Znum false true false m n k 1 A lda B ldb 0 C ldc mem mem.
Proof.
  exists c3_E, ge_cb, cp_L, (fun a => a), 2, 2, 3, 200, 5, 300, 5, 100, 5.
  split; [apply c3_args; lia|]. split; [apply C86_dgemm_trans_refuted; try lia; left; split; [left; reflexivity|lia]|]. badc 0 0.
Qed.
Print Assumptions C86_dgemm_trans_sample_refuted.

(* 'C' is not taken as a transposition *)
Theorem C86_dgemm_conj_refuted : exists E cb L (mem : Z -> Z) m n k A lda B ldb C ldc,
  gemm_args L E cb false true false m n k A lda B ldb C ldc /\ m = k /\ trans_is 67 true /\
  outcome (blas_gemmf Znum E 67 78 m n k 1 A lda B ldb 0 C ldc) L mem (fun _ mem' =>
    gemm_done Znum false false false m n k 1 A lda B ldb 0 C ldc mem mem' /\
    ~ gemm_done Znum false true false m n k 1 A lda B ldb 0 C ldc mem mem').
Proof.
  exists c3_E, ge_cb, cp_L, (fun a => a * a), 2, 2, 2, 200, 5, 300, 5, 100, 5.
  split; [apply c3_args; lia|]. split; [reflexivity|]. split; [right; left; reflexivity|].
  unfold outcome.
  destruct (blas_gemmf Znum c3_E 67 78 2 2 2 1 200 5 300 5 0 100 5 cp_L (fun a => a * a)) as [[u mem']|] eqn:R.
  2: { vm_compute in R. discriminate. }
  assert (V : mem' 100 = 40000 * 90000 + 42025 * 90601 /\ mem' 101 = 40401 * 90000 + 42436 * 90601 /\
              mem' 105 = 40000 * 93025 + 42025 * 93636 /\ mem' 106 = 40401 * 93025 + 42436 * 93636).
  { vm_compute in R. injection R as _ <-. vm_compute. repeat split; reflexivity. }
  destruct V as (V1 & V2 & V3 & V4). split.
  - intros i j Hi Hj. assert (Ci : i = 0 \/ i = 1) by lia. assert (Cj : j = 0 \/ j = 1) by lia.
    destruct Ci as [-> | ->], Cj as [-> | ->]; unfold mel at 1, adr;
      match goal with |- mem' ?x = _ => let y := eval vm_compute in x in change x with y end;
      [rewrite V1|rewrite V3|rewrite V2|rewrite V4]; vm_compute; reflexivity.
  - intros V. specialize (V 0 0 ltac:(lia) ltac:(lia)). unfold mel at 1, adr in V. atc V. rewrite V1 in V. vm_compute in V. discriminate.
Qed.
Print Assumptions C86_dgemm_conj_refuted.

(* ---- cblas_xgemm ---- *)

(* stored by columns *)
Theorem C86_cblas_gemm_col_partial : forall T (K : num T), is_ring K -> eqb_ok K ->
  forall E cb L (mem : Z -> T) transa transb m n k alpha A lda B ldb beta C ldc,
    transa = CblasNoTrans \/ transa = CblasTrans -> transb = CblasNoTrans \/ transb = CblasTrans ->
    let ta := transa =? CblasTrans in let tb := transb =? CblasTrans in
    gemm_args L E cb false ta tb m n k A lda B ldb C ldc ->
    exists mem', cblas_gemm K E CblasColMajor transa transb m n k alpha A lda B ldb beta C ldc L mem = Some (tt, mem') /\
      gemm_done K false ta tb m n k alpha A lda B ldb beta C ldc mem mem' /\
      (forall a, ~ cell (place false C ldc m n) a -> ~ inbuf cb (e_p E) a -> mem' a = mem a).
Proof.
  intros T K HR HE E cb L mem transa transb m n k alpha A lda B ldb beta C ldc _ _ ta tb H.
  unfold cblas_gemm. rewrite Z.eqb_refl. fold ta tb. apply gemm_col; auto.
Qed.
Print Assumptions C86_cblas_gemm_col_partial.

(* stored by rows: unless m = n = k nothing is computed, whatever the arguments *)
Theorem C86_cblas_gemm_row_refuted : forall T (K : num T) E L (mem : Z -> T) transa transb m n k alpha A lda B ldb beta C ldc,
  0 < m -> 0 < n -> 0 < k -> ~ (m = n /\ n = k) ->
  cblas_gemm K E CblasRowMajor transa transb m n k alpha A lda B ldb beta C ldc L mem = Some (tt, mem).
Proof.
  intros T K E L mem transa transb m n k alpha A lda B ldb beta C ldc P1 P2 P3 H. unfold cblas_gemm.
  change (CblasRowMajor =? CblasColMajor) with false. rewrite Z.eqb_refl.
  destruct (transa =? CblasNoTrans), (transb =? CblasNoTrans); apply gemm_esize; cbn [rows cols armas_make]; auto;
    unfold oprows, opcols; cbn [rows cols armas_make]; lia.
Qed.
Print Assumptions C86_cblas_gemm_row_refuted.

(* and if m = n = k the result is the transpose of what it should be *)
Theorem C86_cblas_gemm_row_square_refuted : forall T (K : num T), is_ring K -> eqb_ok K ->
  forall E cb L (mem : Z -> T) transa transb n alpha A lda B ldb beta C ldc,
    transa = CblasNoTrans \/ transa = CblasTrans -> transb = CblasNoTrans \/ transb = CblasTrans ->
    let ta := transa =? CblasTrans in let tb := transb =? CblasTrans in
    gemm_args L E cb true ta tb n n n A lda B ldb C ldc ->
    exists mem', cblas_gemm K E CblasRowMajor transa transb n n n alpha A lda B ldb beta C ldc L mem = Some (tt, mem') /\
      (forall i j, 0 <= i < n -> 0 <= j < n -> mel mem' true C ldc j i = add K (mul K beta (mel mem true C ldc j i))
         (mul K alpha (vsum K n (fun l => mul K (opel mem true ta A lda i l) (opel mem true tb B ldb l j))))).
Proof.
  intros T K HR HE E cb L mem transa transb n alpha A lda B ldb beta C ldc Ha Hb ta tb H.
  destruct (gemm_col K HR HE E cb L mem (negb ta) (negb tb) n n n alpha A lda B ldb beta C ldc) as (mem' & R & V & _).
  { unfold gemm_args, oplace, place in *. destruct ta, tb; exact H. }
  exists mem'. split.
  - unfold cblas_gemm. change (CblasRowMajor =? CblasColMajor) with false. rewrite Z.eqb_refl.
    replace (transa =? CblasNoTrans) with (negb ta) by (unfold ta; destruct Ha as [-> | ->]; reflexivity).
    replace (transb =? CblasNoTrans) with (negb tb) by (unfold tb; destruct Hb as [-> | ->]; reflexivity).
    rewrite <- R. destruct ta, tb; reflexivity.
  - intros i j Hi Hj. specialize (V i j Hi Hj). refine (eq_trans V _). f_equal. f_equal. apply vsum_ext. intros l Hl.
    unfold opel, mel, adr. destruct ta, tb; reflexivity.
Qed.
Print Assumptions C86_cblas_gemm_row_square_refuted.

Theorem C86_cblas_gemm_row_sample_refuted : exists E cb L (mem : Z -> Z) n A lda B ldb C ldc,
  gemm_args L E cb true false false n n n A lda B ldb C ldc /\
  outcome (cblas_gemm Znum E CblasRowMajor CblasNoTrans CblasNoTrans n n n 1 A lda B ldb 0 C ldc) L mem (fun _ mem' =>
    ~ gemm_done Znum true false false n n n 1 A lda B ldb 0 C ldc mem mem').
Proof.
  exists c3_E, ge_cb, cp_L, (fun a => a * a), 2, 200, 5, 300, 5, 100, 5. split; [apply c3_args; lia|].
  unfold outcome. destruct (cblas_gemm Znum c3_E CblasRowMajor CblasNoTrans CblasNoTrans 2 2 2 1 200 5 300 5 0 100 5 cp_L (fun a => a * a)) as [[u mem']|] eqn:R.
  2: { vm_compute in R. discriminate. }
  assert (V1 : mem' 101 = 42025 * 90000 + 42436 * 93025).
  { vm_compute in R. injection R as _ <-. vm_compute. reflexivity. }
  intros V. specialize (V 0 1 ltac:(lia) ltac:(lia)). unfold mel at 1, adr in V. atc V. rewrite V1 in V. vm_compute in V. discriminate.
Qed.
Print Assumptions C86_cblas_gemm_row_sample_refuted.

(* ---- xSYMM ---- *)

(* the arguments of a SYMM call; only one triangle of A need be accessible *)
Definition symm_args (L : Z -> bool) (E : lenv) (cb : cbuf) (row right upper : bool) (m n A lda B ldb C ldc : Z) : Prop :=
  let d := if right then n else m in
  let Cv := place row C ldc m n in let Av := place row A lda d d in let Bv := place row B ldb m n in
  0 < m /\ 0 < n /\ wf Cv /\ wf Av /\ wf Bv /\ allocated L Cv /\ tri_allocated L (xorb row upper) Av /\ allocated L Bv /\
  disjoint Cv Av /\ disjoint Cv Bv /\ has_buf L E cb Cv Av Bv /\
  symm_blocks (xorb row right) Cv (armas_cache_setup2 cb (e_mb E) (e_nb E) (e_kb E) (e_p E)).

Section S2.
  Context {T : Type} (K : num T).
  Hypotheses (HR : is_ring K) (HE : eqb_ok K).
  Let HR' : ring_theory (zero K) (one K) (add K) (mul K) (sub K) (opp K) eq := HR.
  Add Ring KringC4 : HR'.

  (* xorb row right, xorb row upper: the transposed problem *)
  Lemma symm_both : forall E cb L (mem : Z -> T) (row right upper : bool) m n alpha A lda B ldb beta C ldc,
    symm_args L E cb row right upper m n A lda B ldb C ldc ->
    exists mem', drop (armas_mult_sym K (e_cb E) (e_mb E) (e_nb E) (e_kb E) (e_p E) beta (place row C ldc m n) alpha
        (place row A lda (if right then n else m) (if right then n else m)) (place row B ldb m n)
        (Z.lor (if xorb row right then ARMAS_RIGHT else ARMAS_LEFT) (if xorb row upper then ARMAS_UPPER else ARMAS_LOWER))) L mem = Some (tt, mem') /\
      symm_done K row right upper m n alpha A lda B ldb beta C ldc mem mem' /\
      (forall a, ~ cell (place row C ldc m n) a -> ~ inbuf cb (e_p E) a -> mem' a = mem a).
  Proof.
    intros E cb L mem row right upper m n alpha A lda B ldb beta C ldc H.
    destruct H as (P1 & P2 & WC & WA & WB & LC & LA & LB & DA & DB & (-> & BO) & SB).
    set (f := Z.lor _ _).
    assert (F : has f ARMAS_UPPER = xorb row upper /\ has f ARMAS_RIGHT = xorb row right /\ has f ARMAS_TRANSB = false /\
      has f ARMAS_UNIT = false /\ has f ARMAS_LOWER = negb (xorb row upper) /\ has f ARMAS_LEFT && xorb row right = false /\ no_abs f)
      by (unfold f, no_abs; destruct row, right, upper; repeat split; reflexivity).
    destruct F as (F1 & F2 & F3 & F4 & F5 & F6 & F7).
    set (d := if right then n else m) in *.
    pose proof (C84_mult_sym_partial T K HR HE cb (e_mb E) (e_nb E) (e_kb E) (e_p E) L mem beta (place row C ldc m n) alpha
      (place row A lda d d) (place row B ldb m n) f) as X.
    cbv zeta in X. rewrite F1, F2, F3, F4 in X.
    destruct X as (mem' & R & V & O); auto.
    { unfold symm_shapes, oprows, opcols, place, d. destruct row, right; cbn [xorb rows cols]; auto. }
    exists mem'. split; [exact (drop_run _ _ _ _ _ _ R)|]. split; [|exact O].
    intros i j Hi Hj. unfold symm_product in V.
    assert (SY : forall l q, sym (xorb row upper) mem (place row A lda d d) (if row then q else l) (if row then l else q) = symel mem row upper A lda l q).
    { intros l q. unfold sym, symel, elt, mel, adr, place. destruct row, upper; cbn [xorb elems step]; reflexivity. }
    assert (V' : elt mem' (place row C ldc m n) (if row then j else i) (if row then i else j) =
      add K (mul K beta (elt mem (place row C ldc m n) (if row then j else i) (if row then i else j))) (mul K alpha
       (if xorb row right then vsum K d (fun k => mul K (elt mem (place row B ldb m n) (if row then j else i) k)
            (sym (xorb row upper) mem (place row A lda d d) k (if row then i else j)))
        else vsum K d (fun k => mul K (sym (xorb row upper) mem (place row A lda d d) (if row then j else i) k)
            (elt mem (place row B ldb m n) k (if row then i else j)))))).
    { rewrite V by (unfold pos, place; destruct row; cbn [rows cols]; auto). unfold symat. cbn [andb].
      replace (rows (place row A lda d d)) with d by (unfold place; destruct row; reflexivity). unfold opelt. reflexivity. }
    replace (mel mem' row C ldc i j) with (elt mem' (place row C ldc m n) (if row then j else i) (if row then i else j))
      by (unfold elt, mel, adr, place; destruct row; reflexivity).
    replace (mel mem row C ldc i j) with (elt mem (place row C ldc m n) (if row then j else i) (if row then i else j))
      by (unfold elt, mel, adr, place; destruct row; reflexivity).
    rewrite V'. f_equal. f_equal. unfold d.
    destruct row, right; cbn [xorb]; apply vsum_ext; intros l Hl; rewrite <- SY; cbn [xorb]; unfold elt at 1, mel, adr, place; cbn [elems step];
      try reflexivity; apply (Rmul_comm HR').
  Qed.
End S2.

(* the Fortran interface *)
Theorem C86_dsymm : forall T (K : num T), is_ring K -> eqb_ok K ->
  forall E cb L (mem : Z -> T) side uplo right upper m n alpha A lda B ldb beta C ldc,
    side_is side right -> uplo_is uplo upper ->
    symm_args L E cb false right upper m n A lda B ldb C ldc ->
    exists mem', blas_symmf K E side uplo m n alpha A lda B ldb beta C ldc L mem = Some (tt, mem') /\
      symm_done K false right upper m n alpha A lda B ldb beta C ldc mem mem' /\
      (forall a, ~ cell (place false C ldc m n) a -> ~ inbuf cb (e_p E) a -> mem' a = mem a).
Proof.
  intros T K HR HE E cb L mem side uplo right upper m n alpha A lda B ldb beta C ldc Hs Hu H.
  destruct (symm_both K HR HE E cb L mem false right upper m n alpha A lda B ldb beta C ldc H) as (mem' & R & V).
  exists mem'. split; [|exact V]. rewrite <- R. unfold blas_symmf.
  replace (toupper side =? chr_R) with right.
  2: { destruct right; cbn [side_is] in Hs; [rewrite (upper_of side 82)|rewrite (upper_of side 76)]; try lia; auto. }
  replace (toupper uplo =? chr_L) with (negb upper).
  2: { destruct upper; cbn [uplo_is] in Hu; [rewrite (upper_of uplo 85)|rewrite (upper_of uplo 76)]; try lia; auto. }
  destruct right, upper; reflexivity.
Qed.
Print Assumptions C86_dsymm.

(* the C interface, stored by rows *)
Theorem C86_cblas_symm_row : forall T (K : num T), is_ring K -> eqb_ok K ->
  forall E cb L (mem : Z -> T) side uplo m n alpha A lda B ldb beta C ldc,
    side = CblasLeft \/ side = CblasRight -> uplo = CblasUpper \/ uplo = CblasLower ->
    let right := side =? CblasRight in let upper := uplo =? CblasUpper in
    symm_args L E cb true right upper m n A lda B ldb C ldc ->
    exists mem', cblas_symm K E CblasRowMajor side uplo m n alpha A lda B ldb beta C ldc L mem = Some (tt, mem') /\
      symm_done K true right upper m n alpha A lda B ldb beta C ldc mem mem' /\
      (forall a, ~ cell (place true C ldc m n) a -> ~ inbuf cb (e_p E) a -> mem' a = mem a).
Proof.
  intros T K HR HE E cb L mem side uplo m n alpha A lda B ldb beta C ldc _ _ right upper H.
  destruct (symm_both K HR HE E cb L mem true right upper m n alpha A lda B ldb beta C ldc H) as (mem' & R & V).
  exists mem'. split; [|exact V]. rewrite <- R. unfold cblas_symm. rewrite Z.eqb_refl. fold right upper.
  destruct right, upper; reflexivity.
Qed.
Print Assumptions C86_cblas_symm_row.

(* stored by columns: only if m = n *)
Theorem C86_cblas_symm_col_partial : forall T (K : num T), is_ring K -> eqb_ok K ->
  forall E cb L (mem : Z -> T) side uplo n alpha A lda B ldb beta C ldc,
    side = CblasLeft \/ side = CblasRight -> uplo = CblasUpper \/ uplo = CblasLower ->
    let right := side =? CblasRight in let upper := uplo =? CblasUpper in
    symm_args L E cb false right upper n n A lda B ldb C ldc ->
    exists mem', cblas_symm K E CblasColMajor side uplo n n alpha A lda B ldb beta C ldc L mem = Some (tt, mem') /\
      symm_done K false right upper n n alpha A lda B ldb beta C ldc mem mem' /\
      (forall a, ~ cell (place false C ldc n n) a -> ~ inbuf cb (e_p E) a -> mem' a = mem a).
Proof.
  intros T K HR HE E cb L mem side uplo n alpha A lda B ldb beta C ldc _ _ right upper H.
  destruct (symm_both K HR HE E cb L mem false right upper n n alpha A lda B ldb beta C ldc H) as (mem' & R & V).
  exists mem'. split; [|exact V]. rewrite <- R. unfold cblas_symm. change (CblasColMajor =? CblasRowMajor) with false. fold right upper.
  destruct right, upper; reflexivity.
Qed.
Print Assumptions C86_cblas_symm_col_partial.

(* and if m <> n nothing is computed: A is taken as n by n on the left and m by m on the right *)
Theorem C86_cblas_symm_col_refuted : forall T (K : num T) E L (mem : Z -> T) side uplo m n alpha A lda B ldb beta C ldc,
  0 < m -> 0 < n -> m <> n ->
  cblas_symm K E CblasColMajor side uplo m n alpha A lda B ldb beta C ldc L mem = Some (tt, mem).
Proof.
  intros T K E L mem side uplo m n alpha A lda B ldb beta C ldc P1 P2 H. unfold cblas_symm. change (CblasColMajor =? CblasRowMajor) with false.
  cbv iota zeta. apply (drop_run _ _ _ _ (- ARMAS_ESIZE)).
  destruct (side =? CblasRight) eqn:Er, (uplo =? CblasUpper) eqn:Eu;
    (match goal with |- run (armas_mult_sym _ _ _ _ _ _ _ ?C _ ?A ?B ?f) _ _ = _ =>
       destruct (C84_mult_sym_errors T K L mem (e_cb E) (e_mb E) (e_nb E) (e_kb E) (e_p E) beta C alpha A B f) as (X & _) end;
     [cbn [rows armas_make]; lia|cbn [cols armas_make]; lia|unfold armas_size; cbn [rows cols armas_make]; nia|
      unfold armas_size; cbn [rows cols armas_make]; nia|reflexivity|
      apply X; unfold symm_shapes, oprows, opcols; cbn; lia]).
Qed.
Print Assumptions C86_cblas_symm_col_refuted.

Theorem C86_cblas_symm_col_sample_refuted : exists E cb L (mem : Z -> Z) m n A lda B ldb C ldc,
  symm_args L E cb false false true m n A lda B ldb C ldc /\
  cblas_symm Znum E CblasColMajor CblasLeft CblasUpper m n 1 A lda B ldb 0 C ldc L mem = Some (tt, mem) /\
  ~ symm_done Znum false false true m n 1 A lda B ldb 0 C ldc mem mem.
Proof.
  exists c3_E, ge_cb, cp_L, (fun a => a), 2, 3, 200, 5, 300, 5, 100, 5.
  split; [|split; [apply C86_cblas_symm_col_refuted; lia|badc 0 0]].
  destruct (ge_ok 2 3 5 2 2 5 2 3 5) as (X1 & X2 & X3 & X4 & X5 & X6 & X7 & X8 & X9); try lia.
  unfold symm_args, place. do 2 (split; [lia|]). repeat (split; [first [assumption|apply tri_alloc; assumption]|]).
  split; [apply c3_buf; exact X9|]. apply C84_default_config; [cbn; lia|right; reflexivity].
Qed.
Print Assumptions C86_cblas_symm_col_sample_refuted.

(* ---- xSYRK and xSYR2K, Fortran interface ---- *)

(* Missing: what C67_update_sym_partial leaves open for the upper triangle, and TRANS = 'C' *)
Theorem C86_dsyrk_partial : forall T (K : num T), is_ring K -> eqb_ok K ->
  forall E cb L (mem : Z -> T) uplo trans upper t n k alpha A lda beta C ldc,
    uplo_is uplo upper -> trans_is trans t -> ~ letter trans 67 99 ->
    let Cv := place false C ldc n n in let Av := oplace false t A lda n k in
    0 < n -> 0 < k -> wf Cv -> wf Av -> allocated L Cv -> allocated L Av -> disjoint Cv Av -> has_buf L E cb Cv Av Av ->
    2 <= e_b2 E -> n < Z.of_nat (e_fuel E) ->
    (upper = true -> has (e_opt E) ARMAS_ONAIVE = false ->
      if e_opt E =? ARMAS_ORECURSIVE then exists k q, 0 <= k /\ n = q * 2 ^ k /\ q < e_b2 E
      else NB (armas_cache_setup2 cb (e_mb E) (e_nb E) (e_kb E) (e_p E)) < e_b2 E) ->
    exists mem', blas_syrkf K E uplo trans n k alpha A lda beta C ldc L mem = Some (tt, mem') /\
      syrk_done K false upper t n k alpha A lda beta C ldc mem mem' /\
      (forall a, ~ cell Cv a -> ~ inbuf cb (e_p E) a -> mem' a = mem a).
Proof.
  intros T K HR HE E cb L mem uplo trans upper t n k alpha A lda beta C ldc Hu Ht Nt Cv Av P1 P2 WC WA LC LA DA (Ec & BO) Hb Hf HU.
  assert (Et : (toupper trans =? chr_T) = t).
  { destruct t; cbn [trans_is] in Ht.
    - destruct Ht as [Ht|Ht]; [|tauto]. rewrite (upper_of trans 84) by (lia || exact Ht). reflexivity.
    - rewrite (upper_of trans 78) by (lia || exact Ht). reflexivity. }
  assert (Eu : (toupper uplo =? chr_L) = negb upper).
  { destruct upper; cbn [uplo_is] in Hu; [rewrite (upper_of uplo 85)|rewrite (upper_of uplo 76)]; try lia; auto. }
  unfold blas_syrkf. rewrite Et, Eu, Ec. set (f := Z.lor _ _).
  assert (F : has f ARMAS_UPPER = upper /\ has f ARMAS_TRANS = t) by (unfold f; destruct upper, t; split; reflexivity).
  destruct F as (F1 & F2).
  assert (SA : oprows Av t = n /\ opcols Av t = k) by (unfold Av; destruct t; split; reflexivity). destruct SA as (SA1 & SA2).
  pose proof (C67_update_sym_partial T K HR HE (e_fuel E) (e_b2 E) (e_opt E) cb (e_mb E) (e_nb E) (e_kb E) (e_p E) L mem beta Cv alpha Av f) as X.
  unfold sym_shapes in X. rewrite F1, F2, SA1, SA2 in X.
  destruct X as (mem' & R & V & O); auto.
  exists mem'. split.
  { refine (drop_run _ _ _ _ _ _ (eq_trans _ R)). unfold Av, oplace, place, Cv. destruct t; reflexivity. }
  split; [|exact O]. intros i j Hi Hj. refine (eq_trans (V i j (conj Hi Hj)) _).
  destruct (if upper then i <=? j else j <=? i); [|reflexivity]. f_equal. f_equal. apply vsum_ext. intros l Hl. unfold Av. destruct t; reflexivity.
Qed.
Print Assumptions C86_dsyrk_partial.

(* Missing: ldb <> lda (C86_dsyr2k_ldb_refuted), TRANS = 'C' *)
Theorem C86_dsyr2k_partial : forall T (K : num T), is_ring K -> eqb_ok K ->
  forall E cb L (mem : Z -> T) uplo trans upper t n k alpha A ld B beta C ldc,
    uplo_is uplo upper -> trans_is trans t -> ~ letter trans 67 99 ->
    let Cv := place false C ldc n n in let Av := oplace false t A ld n k in let Bv := oplace false t B ld n k in
    0 < n -> 0 < k -> wf Cv -> wf Av -> wf Bv -> tri_allocated L upper Cv -> allocated L Av -> allocated L Bv ->
    disjoint Cv Av -> disjoint Cv Bv -> has_buf L E cb Cv Av Bv ->
    0 <= e_b1 E -> 2 <= e_b2 E -> 2 <= e_lb E -> n < Z.of_nat (e_fuel E) -> k < Z.of_nat (e_fuel E) ->
    exists mem', blas_syr2kf K E uplo trans n k alpha A ld B ld beta C ldc L mem = Some (tt, mem') /\
      syr2k_done K false upper t n k alpha A ld B ld beta C ldc mem mem' /\
      (forall a, ~ cell Cv a -> ~ inbuf cb (e_p E) a -> mem' a = mem a).
Proof.
  intros T K HR HE E cb L mem uplo trans upper t n k alpha A ld B beta C ldc Hu Ht Nt Cv Av Bv P1 P2 WC WA WB LC LA LB DA DB (Ec & BO) Hb1 Hb2 Hlb Hf1 Hf2.
  assert (Et : (toupper trans =? chr_T) = t).
  { destruct t; cbn [trans_is] in Ht.
    - destruct Ht as [Ht|Ht]; [|tauto]. rewrite (upper_of trans 84) by (lia || exact Ht). reflexivity.
    - rewrite (upper_of trans 78) by (lia || exact Ht). reflexivity. }
  assert (Eu : (toupper uplo =? chr_L) = negb upper).
  { destruct upper; cbn [uplo_is] in Hu; [rewrite (upper_of uplo 85)|rewrite (upper_of uplo 76)]; try lia; auto. }
  unfold blas_syr2kf. rewrite Et, Eu. set (f := Z.lor _ _).
  assert (F : has f ARMAS_UPPER = upper /\ has f ARMAS_TRANS = t) by (unfold f; destruct upper, t; split; reflexivity).
  destruct F as (F1 & F2).
  assert (SA : oprows Av t = n /\ opcols Av t = k) by (unfold Av; destruct t; split; reflexivity). destruct SA as (SA1 & SA2).
  pose proof (C85_update2_sym_partial T K HR HE E L mem beta Cv alpha Av Bv f) as X.
  unfold shapes2 in X. cbv zeta in X. rewrite F1, F2, SA1, SA2 in X.
  destruct X as (mem' & R & V & O); auto.
  { unfold Av, Bv. destruct t; auto. }
  { right. split; [exact Hlb|]. exists cb. auto. }
  exists mem'. split.
  { refine (drop_run _ _ _ _ _ _ (eq_trans _ R)). unfold Av, Bv, oplace, place, Cv. destruct t; reflexivity. }
  split.
  - intros i j Hi Hj. refine (eq_trans (V i j (conj Hi Hj)) _). rewrite SA2.
    destruct (if upper then i <=? j else j <=? i); [|reflexivity]. f_equal. f_equal. unfold Av, Bv. destruct t; reflexivity.
  - intros a Ha Hi. apply O; auto. intros c _ Ec'. rewrite Ec in Ec'. injection Ec' as <-. exact Hi.
Qed.
Print Assumptions C86_dsyr2k_partial.

(* B is read with the leading dimension of A *)
Theorem C86_dsyr2k_ldb_refuted : exists E cb L (mem : Z -> Z) n k A lda B ldb C ldc,
  let Cv := place false C ldc n n in let Av := place false A lda n k in let Bv := place false B ldb n k in
  0 < n /\ 0 < k /\ wf Cv /\ wf Av /\ wf Bv /\ allocated L Cv /\ allocated L Av /\ allocated L Bv /\
  disjoint Cv Av /\ disjoint Cv Bv /\ has_buf L E cb Cv Av Bv /\
  outcome (blas_syr2kf Znum E 76 78 n k 1 A lda B ldb 0 C ldc) L mem (fun _ mem' =>
    ~ syr2k_done Znum false false false n k 1 A lda B ldb 0 C ldc mem mem').
Proof.
  exists c3_E, ge_cb, cp_L, (fun a => a), 2, 2, 200, 5, 300, 6, 100, 5. cbv zeta. unfold place.
  destruct (ge_ok 2 2 5 2 2 5 2 2 6) as (X1 & X2 & X3 & X4 & X5 & X6 & X7 & X8 & X9); try lia.
  do 2 (split; [lia|]). repeat (split; [assumption|]). split; [apply c3_buf; exact X9|].
  unfold outcome. destruct (blas_syr2kf Znum c3_E 76 78 2 2 1 200 5 300 6 0 100 5 cp_L (fun a => a)) as [[u mem']|] eqn:R.
  2: { vm_compute in R. discriminate. }
  assert (V1 : mem' 100 = 2 * (200 * 300 + 205 * 305)).
  { vm_compute in R. injection R as _ <-. vm_compute. reflexivity. }
  intros V. specialize (V 0 0 ltac:(lia) ltac:(lia)). unfold mel at 1, adr in V. atc V. rewrite V1 in V. vm_compute in V. discriminate.
Qed.
Print Assumptions C86_dsyr2k_ldb_refuted.

(* the general product and the symmetric one, 2 by 3 stored by rows, with the default configuration *)
Example C86_nonvacuous :
  gemm_args cp_L c3_E ge_cb false true false 2 3 4 200 5 300 5 100 5 /\
  (exists mem', cblas_gemm Znum c3_E CblasColMajor CblasTrans CblasNoTrans 2 3 4 1 200 5 300 5 2 100 5 cp_L (fun a => a) = Some (tt, mem') /\
     mem' 111 = 2 * 111 + (205 * 310 + 206 * 311 + 207 * 312 + 208 * 313)) /\
  symm_args cp_L c3_E ge_cb true true false 2 3 200 5 300 5 100 5 /\
  (exists mem', cblas_symm Znum c3_E CblasRowMajor CblasRight CblasLower 2 3 1 200 5 300 5 2 100 5 cp_L (fun a => a) = Some (tt, mem') /\
     mem' 106 = 2 * 106 + (305 * 205 + 306 * 206 + 307 * 211)).
Proof.
  split; [apply c3_args; lia|]. split; [eexists; split; [vm_compute; reflexivity|vm_compute; reflexivity]|]. split.
  - destruct (ge_ok 3 2 5 3 3 5 3 2 5) as (X1 & X2 & X3 & X4 & X5 & X6 & X7 & X8 & X9); try lia.
    unfold symm_args, place. do 2 (split; [lia|]). repeat (split; [first [assumption|apply tri_alloc; assumption]|]).
    split; [apply c3_buf; exact X9|]. apply C84_default_config; [cbn; lia|right; reflexivity].
  - eexists; split; [vm_compute; reflexivity|vm_compute; reflexivity].
Qed.
