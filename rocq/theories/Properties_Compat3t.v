(* Properties_Compat3t.v: C87 the BLAS and CBLAS names of the triangular products and solvers. *)
From Coq Require Import ZArith QArith Lia Bool ZifyBool Ring.
From Verif Require Import Mem MView SpecView PView PSub Hoare MFlags MBase MCopy PUpd PCopy Properties_Copy
  MNum SpecNum MBlas1 PSum PBlas1 Inst MElem PElem MBlas2 PMvec PBlas2
  PFrame SpecTrm MTrm PTrm MGemm PGemm PMatcpy PMult Properties_Gemm MTrsm PTrsm Properties_Trsm MTrmm PTrmm Properties_Trmm
  MLap SpecBlas MCompat3 Properties_Compat3.
Local Open Scope Z_scope.
Local Open Scope prog_scope.
Ltac lia := Lia.lia.

(* the arguments of a TRMM or TRSM call: B is m by n, A square; the leading dimensions are large
   enough, the memory is accessible and A and B do not overlap; the blocked algorithms are used
   (the default) with a switch-over size of at least 2 *)
Definition trm_args (L : Z -> bool) (E : lenv) (cb : cbuf) (row right : bool) (m n A lda B ldb : Z) : Prop :=
  let d := if right then n else m in
  let Av := place row A lda d d in let Bv := place row B ldb m n in
  0 < m /\ 0 < n /\ wf Av /\ wf Bv /\ allocated L Av /\ allocated L Bv /\ disjoint Bv Av /\ has_buf L E cb Bv Av Av /\
  2 <= e_b2 E /\ m < Z.of_nat (e_fuel E) /\ n < Z.of_nat (e_fuel E) /\ has (e_opt E) ARMAS_ONAIVE = false.

(* TRSM: for an alpha other than 1 the blocks have to be small (C65) *)
Definition small_or_one {T} (K : num T) (E : lenv) (cb : cbuf) (d : Z) (alpha : T) : Prop :=
  alpha = one K \/ (if has (e_opt E) ARMAS_ORECURSIVE then d < e_b2 E
                    else Z.min (NB (armas_cache_setup2 cb (e_mb E) (e_nb E) (e_kb E) (e_p E))) d < e_b2 E).

(* no zero on the diagonal, unless it is not read *)
Definition nonsingular {T} (K : num T) (unit : bool) (m : Z -> T) (row : bool) (d A lda : Z) : Prop :=
  unit = true \/ (forall i, 0 <= i < d -> mel m row A lda i i <> zero K).

Definition trm_flags (right upper t unit : bool) : Z :=
  Z.lor (Z.lor (if right then ARMAS_RIGHT else ARMAS_LEFT) (if upper then ARMAS_UPPER else ARMAS_LOWER))
        (Z.lor (flag t ARMAS_TRANS) (flag unit ARMAS_UNIT)).
Lemma trm_flags_has : forall right upper t unit, let f := trm_flags right upper t unit in
  has f ARMAS_RIGHT = right /\ has f ARMAS_UPPER = upper /\ has f ARMAS_LOWER = negb upper /\ has f ARMAS_LEFT && right = false /\
  has f ARMAS_UNIT = unit /\ has f ARMAS_TRANSA = t /\ plain_flags f.
Proof. intros [] [] [] []; repeat split; reflexivity. Qed.

Lemma tri_place : forall T (K : num T) m upper unit a ld d i j,
  tri K upper unit m (place false a ld d d) i j = triel K m false upper unit a ld i j.
Proof. reflexivity. Qed.

Section S.
  Context {T : Type} (K : num T).

  Lemma trmm_col : is_ring K -> eqb_ok K -> forall E cb L (mem : Z -> T) right upper t unit m n alpha A lda B ldb,
    trm_args L E cb false right m n A lda B ldb ->
    exists mem', drop (armas_mult_trm K (e_fuel E) (e_b2 E) (e_opt E) (e_cb E) (e_mb E) (e_nb E) (e_kb E) (e_p E)
        (armas_make m n ldb B) alpha (if right then armas_make n n lda A else armas_make m m lda A) (trm_flags right upper t unit)) L mem = Some (tt, mem') /\
      trmm_done K false right upper unit t m n alpha A lda B ldb mem mem' /\
      (forall a, ~ cell (place false B ldb m n) a -> ~ inbuf cb (e_p E) a -> mem' a = mem a).
  Proof.
    intros HR HE E cb L mem right upper t unit m n alpha A lda B ldb H.
    destruct H as (P1 & P2 & WA & WB & LA & LB & D & (Ec & BO) & Hb & Hm & Hn & Ho). rewrite Ec.
    destruct (trm_flags_has right upper t unit) as (F1 & F2 & F3 & F4 & F5 & F6 & F7). set (f := trm_flags right upper t unit) in *.
    set (d := if right then n else m) in *.
    replace (if right then armas_make n n lda A else armas_make m m lda A) with (place false A lda d d) by (unfold d; destruct right; reflexivity).
    pose proof (C78_mult_trm_partial T K HR HE (e_fuel E) (e_b2 E) (e_opt E) cb (e_mb E) (e_nb E) (e_kb E) (e_p E) L mem (place false B ldb m n) alpha
      (place false A lda d d) f) as X. cbv zeta in X. rewrite F1, F2, F5, F6 in X.
    assert (Ed : trm_dim right (place false B ldb m n) = cols (place false A lda d d)) by (unfold trm_dim, d; destruct right; reflexivity).
    destruct X as (mem' & R & V & O); auto.
    { destruct F7 as (_ & _ & _ & F7 & _). exact F7. }
    exists mem'. split; [exact (drop_run _ _ _ _ _ _ R)|]. split; [|exact O].
    intros i j Hi Hj. refine (eq_trans (V i j (conj Hi Hj)) _). f_equal. unfold d. destruct right; reflexivity.
  Qed.

  Lemma trsm_col : is_field K -> eqb_ok K -> forall E cb L (mem : Z -> T) right upper t unit m n alpha A lda B ldb,
    trm_args L E cb false right m n A lda B ldb ->
    nonsingular K unit mem false (if right then n else m) A lda -> small_or_one K E cb (if right then n else m) alpha ->
    exists mem', drop (armas_solve_trm K (e_fuel E) (e_b2 E) (e_opt E) (e_cb E) (e_mb E) (e_nb E) (e_kb E) (e_p E)
        (armas_make m n ldb B) alpha (if right then armas_make n n lda A else armas_make m m lda A) (trm_flags right upper t unit)) L mem = Some (tt, mem') /\
      trsm_done K false right upper unit t m n alpha A lda B ldb mem mem' /\
      (forall a, ~ cell (place false B ldb m n) a -> ~ inbuf cb (e_p E) a -> mem' a = mem a).
  Proof.
    intros HR HE E cb L mem right upper t unit m n alpha A lda B ldb H Hns Hs.
    destruct H as (P1 & P2 & WA & WB & LA & LB & D & (Ec & BO) & Hb & Hm & Hn & Ho). rewrite Ec.
    destruct (trm_flags_has right upper t unit) as (F1 & F2 & F3 & F4 & F5 & F6 & F7). set (f := trm_flags right upper t unit) in *.
    set (d := if right then n else m) in *.
    replace (if right then armas_make n n lda A else armas_make m m lda A) with (place false A lda d d) by (unfold d; destruct right; reflexivity).
    pose proof (C65_solve_trm_partial T K HR HE (e_fuel E) (e_b2 E) (e_opt E) cb (e_mb E) (e_nb E) (e_kb E) (e_p E) L mem (place false B ldb m n) alpha
      (place false A lda d d) f) as X. cbv zeta in X. rewrite F1, F2, F5, F6 in X.
    assert (Ed : trm_dim right (place false B ldb m n) = cols (place false A lda d d)) by (unfold trm_dim, d; destruct right; reflexivity).
    destruct X as (mem' & R & V & O); auto.
    exists mem'. split; [exact (drop_run _ _ _ _ _ _ R)|]. split; [|exact O].
    intros i j Hi Hj. refine (eq_trans _ (V i j (conj Hi Hj))). unfold d. destruct right; reflexivity.
  Qed.

  (* a triangular matrix of the wrong size: both return without a change *)
  Lemma trm_esize : forall E L (mem : Z -> T) right upper t unit alpha A B,
    wf A -> wf B -> 0 < rows B -> 0 < cols B -> 0 < rows A -> 0 < cols A -> trm_dim right B <> cols A ->
    drop (armas_mult_trm K (e_fuel E) (e_b2 E) (e_opt E) (e_cb E) (e_mb E) (e_nb E) (e_kb E) (e_p E) B alpha A (trm_flags right upper t unit)) L mem = Some (tt, mem) /\
    drop (armas_solve_trm K (e_fuel E) (e_b2 E) (e_opt E) (e_cb E) (e_mb E) (e_nb E) (e_kb E) (e_p E) B alpha A (trm_flags right upper t unit)) L mem = Some (tt, mem).
  Proof.
    intros E L mem right upper t unit alpha A B WA WB P1 P2 P3 P4 H.
    destruct (trm_flags_has right upper t unit) as (F1 & F2 & F3 & F4 & F5 & F6 & F7). set (f := trm_flags right upper t unit) in *.
    assert (F : has f ARMAS_LEFT && has f ARMAS_RIGHT = false) by (rewrite F1; exact F4).
    destruct (C78_mult_trm_errors T K (e_fuel E) (e_b2 E) (e_opt E) (e_cb E) (e_mb E) (e_nb E) (e_kb E) (e_p E) L mem B alpha A f F WB WA) as (_ & X).
    destruct (C65_solve_trm_errors T K (e_fuel E) (e_b2 E) (e_opt E) (e_cb E) (e_mb E) (e_nb E) (e_kb E) (e_p E) L mem B alpha A f F WB WA) as (_ & Y).
    rewrite F1 in X, Y. destruct (X P1 P2 P3 P4) as (X1 & _). destruct (Y P1 P2 P3 P4) as (Y1 & _).
    split; apply (drop_run _ _ _ _ (- ARMAS_ESIZE)); auto.
  Qed.
End S.

(* ---- the Fortran interface ---- *)

Lemma f_trm_eq : forall side uplo transa diag right upper t unit m n A lda B ldb,
  side_is side right -> uplo_is uplo upper -> trans_is transa t -> ~ letter transa 67 99 -> diag_is diag unit ->
  f_trm_operands side uplo transa diag m n A lda B ldb =
    (armas_make m n ldb B, (if right then armas_make n n lda A else armas_make m m lda A), trm_flags right upper t unit).
Proof.
  intros side uplo transa diag right upper t unit m n A lda B ldb Hs Hu Ht Nt Hd. unfold f_trm_operands.
  replace (toupper side =? chr_R) with right.
  2: { destruct right; cbn [side_is] in Hs; [rewrite (upper_of side 82)|rewrite (upper_of side 76)]; try lia; auto. }
  replace (toupper uplo =? chr_L) with (negb upper).
  2: { destruct upper; cbn [uplo_is] in Hu; [rewrite (upper_of uplo 85)|rewrite (upper_of uplo 76)]; try lia; auto. }
  replace (toupper transa =? chr_T) with t.
  2: { destruct t; cbn [trans_is] in Ht.
       - destruct Ht as [Ht|Ht]; [|tauto]. rewrite (upper_of transa 84) by (lia || exact Ht). reflexivity.
       - rewrite (upper_of transa 78) by (lia || exact Ht). reflexivity. }
  replace (toupper diag =? chr_U) with unit.
  2: { destruct unit; cbn [diag_is] in Hd; [rewrite (upper_of diag 85)|rewrite (upper_of diag 78)]; try lia; auto. }
  unfold trm_flags. destruct upper; reflexivity.
Qed.

(* Missing: TRANSA = 'C' (C87_trans_c_refuted) *)
Theorem C87_dtrmm_partial : forall T (K : num T), is_ring K -> eqb_ok K ->
  forall E cb L (mem : Z -> T) side uplo transa diag right upper t unit m n alpha A lda B ldb,
    side_is side right -> uplo_is uplo upper -> trans_is transa t -> ~ letter transa 67 99 -> diag_is diag unit ->
    trm_args L E cb false right m n A lda B ldb ->
    exists mem', blas_trmmf K E side uplo transa diag m n alpha A lda B ldb L mem = Some (tt, mem') /\
      trmm_done K false right upper unit t m n alpha A lda B ldb mem mem' /\
      (forall a, ~ cell (place false B ldb m n) a -> ~ inbuf cb (e_p E) a -> mem' a = mem a).
Proof.
  intros T K HR HE E cb L mem side uplo transa diag right upper t unit m n alpha A lda B ldb Hs Hu Ht Nt Hd H.
  unfold blas_trmmf. rewrite (f_trm_eq side uplo transa diag right upper t unit) by auto. apply trmm_col; auto.
Qed.
Print Assumptions C87_dtrmm_partial.

(* Missing: also alpha <> 1 with large blocks (C65) *)
Theorem C87_dtrsm_partial : forall T (K : num T), is_field K -> eqb_ok K ->
  forall E cb L (mem : Z -> T) side uplo transa diag right upper t unit m n alpha A lda B ldb,
    side_is side right -> uplo_is uplo upper -> trans_is transa t -> ~ letter transa 67 99 -> diag_is diag unit ->
    trm_args L E cb false right m n A lda B ldb ->
    nonsingular K unit mem false (if right then n else m) A lda -> small_or_one K E cb (if right then n else m) alpha ->
    exists mem', blas_trsmf K E side uplo transa diag m n alpha A lda B ldb L mem = Some (tt, mem') /\
      trsm_done K false right upper unit t m n alpha A lda B ldb mem mem' /\
      (forall a, ~ cell (place false B ldb m n) a -> ~ inbuf cb (e_p E) a -> mem' a = mem a).
Proof.
  intros T K HR HE E cb L mem side uplo transa diag right upper t unit m n alpha A lda B ldb Hs Hu Ht Nt Hd H Hns Hso.
  unfold blas_trsmf. rewrite (f_trm_eq side uplo transa diag right upper t unit) by auto. apply trsm_col; auto.
Qed.
Print Assumptions C87_dtrsm_partial.

(* ---- the C interface ---- *)

Lemma c_trm_col : forall side uplo transa diag m n A lda B ldb,
  c_trm_operands CblasColMajor side uplo transa diag m n A lda B ldb =
    Some (armas_make m n ldb B, (if side =? CblasRight then armas_make n n lda A else armas_make m m lda A),
      trm_flags (side =? CblasRight) (uplo =? CblasUpper) (transa =? CblasTrans) (diag =? CblasUnit)).
Proof.
  intros. unfold c_trm_operands, trm_flags. rewrite Z.eqb_refl. do 2 f_equal.
  destruct (side =? CblasRight), (uplo =? CblasUpper), (transa =? CblasTrans), (diag =? CblasUnit); reflexivity.
Qed.
Lemma c_trm_row : forall side uplo transa diag m n A lda B ldb,
  c_trm_operands CblasRowMajor side uplo transa diag m n A lda B ldb =
    Some (armas_make n m ldb B, (if side =? CblasRight then armas_make m m lda A else armas_make n n lda A),
      trm_flags (negb (side =? CblasRight)) (negb (uplo =? CblasUpper)) (transa =? CblasNoTrans) (diag =? CblasUnit)).
Proof.
  intros. unfold c_trm_operands, trm_flags. change (CblasRowMajor =? CblasColMajor) with false. rewrite Z.eqb_refl. do 2 f_equal.
  destruct (side =? CblasRight), (uplo =? CblasUpper), (transa =? CblasNoTrans), (diag =? CblasUnit); reflexivity.
Qed.

(* stored by columns *)
Theorem C87_cblas_trmm_col_partial : forall T (K : num T), is_ring K -> eqb_ok K ->
  forall E cb L (mem : Z -> T) side uplo transa diag m n alpha A lda B ldb,
    side = CblasLeft \/ side = CblasRight -> uplo = CblasUpper \/ uplo = CblasLower ->
    transa = CblasNoTrans \/ transa = CblasTrans -> diag = CblasNonUnit \/ diag = CblasUnit ->
    let right := side =? CblasRight in
    trm_args L E cb false right m n A lda B ldb ->
    exists mem', cblas_trmm K E CblasColMajor side uplo transa diag m n alpha A lda B ldb L mem = Some (tt, mem') /\
      trmm_done K false right (uplo =? CblasUpper) (diag =? CblasUnit) (transa =? CblasTrans) m n alpha A lda B ldb mem mem' /\
      (forall a, ~ cell (place false B ldb m n) a -> ~ inbuf cb (e_p E) a -> mem' a = mem a).
Proof.
  intros T K HR HE E cb L mem side uplo transa diag m n alpha A lda B ldb _ _ _ _ right H.
  unfold cblas_trmm. rewrite c_trm_col. apply trmm_col; auto.
Qed.
Print Assumptions C87_cblas_trmm_col_partial.

Theorem C87_cblas_trsm_col_partial : forall T (K : num T), is_field K -> eqb_ok K ->
  forall E cb L (mem : Z -> T) side uplo transa diag m n alpha A lda B ldb,
    side = CblasLeft \/ side = CblasRight -> uplo = CblasUpper \/ uplo = CblasLower ->
    transa = CblasNoTrans \/ transa = CblasTrans -> diag = CblasNonUnit \/ diag = CblasUnit ->
    let right := side =? CblasRight in
    trm_args L E cb false right m n A lda B ldb ->
    nonsingular K (diag =? CblasUnit) mem false (if right then n else m) A lda -> small_or_one K E cb (if right then n else m) alpha ->
    exists mem', cblas_trsm K E CblasColMajor side uplo transa diag m n alpha A lda B ldb L mem = Some (tt, mem') /\
      trsm_done K false right (uplo =? CblasUpper) (diag =? CblasUnit) (transa =? CblasTrans) m n alpha A lda B ldb mem mem' /\
      (forall a, ~ cell (place false B ldb m n) a -> ~ inbuf cb (e_p E) a -> mem' a = mem a).
Proof.
  intros T K HR HE E cb L mem side uplo transa diag m n alpha A lda B ldb _ _ _ _ right H Hns Hso.
  unfold cblas_trsm. rewrite c_trm_col. apply trsm_col; auto.
Qed.
Print Assumptions C87_cblas_trsm_col_partial.

(* stored by rows: if m <> n nothing is computed *)
Theorem C87_cblas_row_refuted : forall T (K : num T) E L (mem : Z -> T) side uplo transa diag m n alpha A lda B ldb,
  0 < m -> 0 < n -> m <> n -> m <= lda -> n <= lda -> n <= ldb ->
  cblas_trmm K E CblasRowMajor side uplo transa diag m n alpha A lda B ldb L mem = Some (tt, mem) /\
  cblas_trsm K E CblasRowMajor side uplo transa diag m n alpha A lda B ldb L mem = Some (tt, mem).
Proof.
  intros T K E L mem side uplo transa diag m n alpha A lda B ldb P1 P2 H H1 H2 H3. unfold cblas_trmm, cblas_trsm. rewrite c_trm_row.
  apply trm_esize; destruct (side =? CblasRight); unfold wf, trm_dim; cbn [negb rows cols step armas_make]; lia.
Qed.
Print Assumptions C87_cblas_row_refuted.

(* and if m = n, op(A) and its transpose are interchanged *)
Theorem C87_cblas_trmm_row_square_refuted : forall T (K : num T), is_ring K -> eqb_ok K ->
  forall E cb L (mem : Z -> T) side uplo transa diag n alpha A lda B ldb,
    side = CblasLeft \/ side = CblasRight -> uplo = CblasUpper \/ uplo = CblasLower ->
    transa = CblasNoTrans \/ transa = CblasTrans -> diag = CblasNonUnit \/ diag = CblasUnit ->
    let right := side =? CblasRight in
    trm_args L E cb true right n n A lda B ldb ->
    exists mem', cblas_trmm K E CblasRowMajor side uplo transa diag n n alpha A lda B ldb L mem = Some (tt, mem') /\
      trmm_done K true right (uplo =? CblasUpper) (diag =? CblasUnit) (negb (transa =? CblasTrans)) n n alpha A lda B ldb mem mem'.
Proof.
  intros T K HR HE E cb L mem side uplo transa diag n alpha A lda B ldb _ _ Ht _ right H.
  assert (HR' : ring_theory (zero K) (one K) (add K) (mul K) (sub K) (opp K) eq) by exact HR.
  set (u := uplo =? CblasUpper). set (d := diag =? CblasUnit).
  assert (Et : (transa =? CblasNoTrans) = negb (transa =? CblasTrans)) by (destruct Ht as [-> | ->]; reflexivity).
  set (t := transa =? CblasTrans) in *.
  destruct (trmm_col K HR HE E cb L mem (negb right) (negb u) (negb t) d n n alpha A lda B ldb) as (mem' & R & V & _).
  { unfold trm_args, place in *. destruct right; exact H. }
  exists mem'. split.
  - rewrite <- R. unfold cblas_trmm. rewrite c_trm_row, Et. fold right u d. destruct right; reflexivity.
  - intros i j Hi Hj. specialize (V j i Hj Hi). refine (eq_trans V _). f_equal.
    assert (X : forall a b, optriel K mem false (negb u) d (negb t) A lda a b = optriel K mem true u d (negb t) A lda b a).
    { intros a b. unfold optriel, triel, mel, adr. rewrite (Z.eqb_sym a b). destruct t, u; cbn [negb]; try reflexivity;
        destruct (b =? a) eqn:Eab; try reflexivity; apply Z.eqb_eq in Eab; subst; reflexivity. }
    destruct right; cbn [negb]; apply vsum_ext; intros l Hl; rewrite X; apply (Rmul_comm HR').
Qed.
Print Assumptions C87_cblas_trmm_row_square_refuted.

Theorem C87_cblas_trsm_row_square_refuted : forall T (K : num T), is_field K -> eqb_ok K ->
  forall E cb L (mem : Z -> T) side uplo transa diag n alpha A lda B ldb,
    side = CblasLeft \/ side = CblasRight -> uplo = CblasUpper \/ uplo = CblasLower ->
    transa = CblasNoTrans \/ transa = CblasTrans -> diag = CblasNonUnit \/ diag = CblasUnit ->
    let right := side =? CblasRight in
    trm_args L E cb true right n n A lda B ldb ->
    nonsingular K (diag =? CblasUnit) mem true n A lda -> small_or_one K E cb n alpha ->
    exists mem', cblas_trsm K E CblasRowMajor side uplo transa diag n n alpha A lda B ldb L mem = Some (tt, mem') /\
      trsm_done K true right (uplo =? CblasUpper) (diag =? CblasUnit) (negb (transa =? CblasTrans)) n n alpha A lda B ldb mem mem'.
Proof.
  intros T K HF HE E cb L mem side uplo transa diag n alpha A lda B ldb _ _ Ht _ right H Hns Hso.
  assert (HR' : ring_theory (zero K) (one K) (add K) (mul K) (sub K) (opp K) eq) by exact (F_R HF).
  set (u := uplo =? CblasUpper). set (d := diag =? CblasUnit).
  assert (Et : (transa =? CblasNoTrans) = negb (transa =? CblasTrans)) by (destruct Ht as [-> | ->]; reflexivity).
  set (t := transa =? CblasTrans) in *.
  destruct (trsm_col K HF HE E cb L mem (negb right) (negb u) (negb t) d n n alpha A lda B ldb) as (mem' & R & V & _).
  { unfold trm_args, place in *. destruct right; exact H. }
  { destruct Hns as [E1|Hns]; [left; exact E1|right]. intros i Hi. replace (if negb right then n else n) with n in Hi by (destruct right; reflexivity).
    specialize (Hns i Hi). unfold mel, adr in *. replace (A + i * lda + i) with (A + i * lda + i) by ring. exact Hns. }
  { replace (if negb right then n else n) with n by (destruct right; reflexivity). exact Hso. }
  exists mem'. split.
  - rewrite <- R. unfold cblas_trsm. rewrite c_trm_row, Et. fold right u d. destruct right; reflexivity.
  - intros i j Hi Hj. specialize (V j i Hj Hi). refine (eq_trans _ V).
    assert (X : forall a b, optriel K mem false (negb u) d (negb t) A lda a b = optriel K mem true u d (negb t) A lda b a).
    { intros a b. unfold optriel, triel, mel, adr. rewrite (Z.eqb_sym a b). destruct t, u; cbn [negb]; try reflexivity;
        destruct (b =? a) eqn:Eab; try reflexivity; apply Z.eqb_eq in Eab; subst; reflexivity. }
    destruct right; cbn [negb]; apply vsum_ext; intros l Hl; rewrite X; apply (Rmul_comm HR').
Qed.
Print Assumptions C87_cblas_trsm_row_square_refuted.

(* 'C' is not taken as a transposition; samples with matrices at 100 (B) and 200 (A) *)
Lemma trm_sample : forall row right m n s, 0 < m <= s -> 0 < n <= s -> s <= 10 -> trm_args cp_L c3_E ge_cb row right m n 200 s 100 s.
Proof.
  intros row right m n s H1 H2 Hs.
  assert (X : forall r c d, 0 < r <= s -> 0 < c <= s -> 0 < d <= s ->
    let Bv := mkview 100 s r c in let Av := mkview 200 s d d in
    wf Av /\ wf Bv /\ allocated cp_L Av /\ allocated cp_L Bv /\ disjoint Bv Av /\ has_buf cp_L c3_E ge_cb Bv Av Av).
  { intros r c d Hr Hc Hd Bv Av.
    destruct (ge_ok r c s d d s 0 0 0) as (X1 & X2 & X3 & X4 & X5 & X6 & X7 & X8 & X9); try lia; try nia.
    repeat (split; [assumption|]). apply c3_buf. intros a Ha. destruct (X9 a Ha) as (Y1 & Y2 & Y3 & Y4). auto. }
  unfold trm_args, place.
  assert (Y : 2 <= e_b2 c3_E /\ m < Z.of_nat (e_fuel c3_E) /\ n < Z.of_nat (e_fuel c3_E) /\ has (e_opt c3_E) ARMAS_ONAIVE = false).
  { cbn [c3_E e_b2 e_fuel e_opt]. repeat split; lia. }
  split; [lia|]. split; [lia|].
  destruct row, right;
    [destruct (X n m n) as (?&?&?&?&?&?)|destruct (X n m m) as (?&?&?&?&?&?)|destruct (X m n n) as (?&?&?&?&?&?)|destruct (X m n m) as (?&?&?&?&?&?)];
    try lia; repeat (split; [assumption|]); exact Y.
Qed.

Theorem C87_trans_c_refuted : exists E cb L (mem : Z -> Z) m n A lda B ldb,
  trm_args L E cb false false m n A lda B ldb /\ trans_is 67 true /\
  outcome (blas_trmmf Znum E 76 85 67 78 m n 1 A lda B ldb) L mem (fun _ mem' =>
    ~ trmm_done Znum false false true false true m n 1 A lda B ldb mem mem').
Proof.
  exists c3_E, ge_cb, cp_L, (fun a => a), 2, 2, 200, 5, 100, 5. split; [apply trm_sample; lia|]. split; [right; left; reflexivity|].
  unfold outcome. destruct (blas_trmmf Znum c3_E 76 85 67 78 2 2 1 200 5 100 5 cp_L (fun a => a)) as [[u mem']|] eqn:R.
  2: { vm_compute in R. discriminate. }
  assert (V1 : mem' 100 = 200 * 100 + 205 * 101).
  { vm_compute in R. injection R as _ <-. vm_compute. reflexivity. }
  intros V. specialize (V 0 0 ltac:(lia) ltac:(lia)). unfold mel at 1, adr in V. atc V. rewrite V1 in V. vm_compute in V. discriminate.
Qed.
Print Assumptions C87_trans_c_refuted.

(* 2 by 2 stored by rows: the product with the transpose of A *)
Theorem C87_cblas_row_sample_refuted : exists E cb L (mem : Z -> Z) n A lda B ldb,
  trm_args L E cb true false n n A lda B ldb /\
  outcome (cblas_trmm Znum E CblasRowMajor CblasLeft CblasUpper CblasNoTrans CblasNonUnit n n 1 A lda B ldb) L mem (fun _ mem' =>
    ~ trmm_done Znum true false true false false n n 1 A lda B ldb mem mem').
Proof.
  exists c3_E, ge_cb, cp_L, (fun a => a), 2, 200, 5, 100, 5. split; [apply trm_sample; lia|].
  unfold outcome. destruct (cblas_trmm Znum c3_E CblasRowMajor CblasLeft CblasUpper CblasNoTrans CblasNonUnit 2 2 1 200 5 100 5 cp_L (fun a => a)) as [[u mem']|] eqn:R.
  2: { vm_compute in R. discriminate. }
  assert (V1 : mem' 100 = 200 * 100).
  { vm_compute in R. injection R as _ <-. vm_compute. reflexivity. }
  intros V. specialize (V 0 0 ltac:(lia) ltac:(lia)). unfold mel at 1, adr in V. atc V. rewrite V1 in V. vm_compute in V. discriminate.
Qed.
Print Assumptions C87_cblas_row_sample_refuted.

(* B (2 by 3) times a unit upper triangular matrix transposed, and a system with the transpose of
   a lower triangular matrix on the left over the rationals *)
Example C87_nonvacuous :
  trm_args cp_L c3_E ge_cb false true 2 3 200 5 100 5 /\
  (exists mem', blas_trmmf Znum c3_E 82 85 84 85 2 3 2 200 5 100 5 cp_L (fun a => a) = Some (tt, mem') /\
     mem' 101 = 2 * (101 + 106 * 205 + 111 * 210)) /\
  trm_args cp_L c3_E ge_cb false false 2 3 200 5 100 5 /\
  nonsingular Qcnum false (fun a => Qcanon.Q2Qc (inject_Z a)) false 2 200 5 /\
  small_or_one Qcnum c3_E ge_cb 2 (Qcanon.Q2Qc (2 # 1)).
Proof.
  split; [apply trm_sample; lia|]. split; [eexists; split; [vm_compute; reflexivity|vm_compute; reflexivity]|].
  split; [apply trm_sample; lia|]. split.
  - right. intros i Hi. assert (Ci : i = 0 \/ i = 1) by lia. destruct Ci as [-> | ->]; vm_compute; discriminate.
  - right. vm_compute. reflexivity.
Qed.
