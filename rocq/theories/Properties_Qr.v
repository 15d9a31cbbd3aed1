(* Properties_Qr.v: C79 the QR factorization, C80 the triangular factor of the block reflector. *)
From Coq Require Import ZArith Lia Bool ZifyBool Ring Field Reals Lra QArith.Qcanon.
From Verif Require Import Mem MView SpecView PView PSub Hoare MFlags MBase MCopy PUpd PCopy
  MNum SpecNum MBlas1 PSum PBlas1 MElem PElem MBlas2 PMvec PBlas2 PFrame SpecTrm MTrm PTrm MGemm PGemm PMatcpy PMult
  MTrsm PTrsm MTrmm PTrmm PNorm MLap PUpdTrm PLap MHouse SpecHouse SpecQr PHouse MQr PQrA PQrB PQr PQrT PUpdQr PQrF Inst
  Properties_Copy Properties_Gemm Properties_Lu Properties_House.
Local Open Scope Z_scope.
Local Open Scope prog_scope.

Ltac lia := nobool; zlia.

(* the elements of size p of which all bytes are among the n bytes from b on *)
Definition in_bytes (b n p a : Z) : Prop := b <= a * p /\ (a + 1) * p <= b + n.

(* A = Q*R with Q = H_0*H_1*...; every H_q is symmetric, orthogonal: an isometry and its own inverse *)
Definition qr_result {T} (K : num T) (M N : Z) (a0 a : Z -> Z -> T) (t : Z -> T) : Prop :=
  (forall i j, 0 <= i < M -> 0 <= j < N -> a0 i j = qapply K M a t (Z.to_nat N) (fun r => upper K a r j) i) /\
  (forall q, 0 <= q < N -> isometry K M (hmap K M a t q) /\
     forall z i, 0 <= i < M -> hmap K M a t q (hmap K M a t q z) i = z i) /\
  (* A^T*A = R^T*R *)
  (forall j k, 0 <= j < N -> 0 <= k < N -> inner K M (fun i => a0 i j) (fun i => a0 i k) =
     inner K N (fun i => upper K a i j) (fun i => upper K a i k)) /\
  (* the last reflector of a square matrix is the identity *)
  (M = N -> 0 < N -> t (N - 1) = zero K) /\
  (* tau is zero only where the vector is (1, 0, 0, ...) *)
  (forall q i, 0 <= q < N -> q < i < M -> t q = zero K -> a i q = zero K).

Section Q.
  Context {T : Type} (K : num T).
  Hypotheses (HF : is_field K) (HO : is_ordered K) (HE : eqb_ok K) (HS : sqrt_ok K).
  Let HR : is_ring K := Field_theory.F_R HF.
  Let HR' : ring_theory (zero K) (one K) (add K) (mul K) (sub K) (opp K) eq := HR.
  Add Ring KringPQ : HR'.

  Lemma inv_result : forall M N a0 a t, 0 <= N <= M -> qr_inv K M N N a0 a t -> qr_result K M N a0 a t.
  Proof.
    intros M N a0 a t HN (I1 & I2 & I3).
    assert (P1 : forall i j, 0 <= i < M -> 0 <= j < N -> a0 i j = qapply K M a t (Z.to_nat N) (fun r => upper K a r j) i).
    { intros i j Hi Hj. rewrite I1 by auto. apply (qapply_ext K); auto. intros r Hr. unfold todo, upper. replace (j <? N) with true by lia. reflexivity. }
    assert (P2 : forall q, 0 <= q < N -> isometry K M (hmap K M a t q)) by (intros q Hq; apply (reflect_iso K HF); apply I2; auto).
    split; [exact P1|]. split; [|split].
    - intros q Hq. split; auto. intros z i Hi. apply (reflect_invol K HF). apply I2; auto.
    - intros j k Hj Hk. rewrite (inner_ext K M _ (qapply K M a t (Z.to_nat N) (fun r => upper K a r j)) _ (qapply K M a t (Z.to_nat N) (fun r => upper K a r k))) by (intros; apply P1; auto).
      rewrite (qapply_iso K) by (intros; apply P2; lia). unfold inner.
      assert (X : M = N + (M - N)) by lia. rewrite X, (vsum_split K HR) by lia.
      rewrite (vsum_zero K HR (M - N)); [ring|]. intros r Hr. unfold upper. replace (j <? N + r) with true by lia. ring.
    - destruct I3 as (I3 & I4). split; [|exact I4]. intros X1 X2. subst M. apply I3; lia.
  Qed.

  Lemma cancel1 : forall v, sub K (one K) (mul K (mul K (zero K) (one K)) (mul K (one K) (one K))) =
    sub K (one K) (mul K (one K) (mul K v (mul K (one K) (one K)))) -> v = zero K.
  Proof.
    intros v H. transitivity (add K (sub K (one K) (sub K (one K) (mul K (one K) (mul K v (mul K (one K) (one K)))))) (zero K)); [ring|].
    rewrite <- H. ring.
  Qed.

  Lemma bytes_elt : forall b n p a, 0 < p -> b mod p = 0 -> ws (b / p) (n / p) a -> in_bytes b n p a.
  Proof.
    intros b n p a Hp Hb (H1 & H2). unfold in_bytes. pose proof (Z_div_mod_eq_full b p). pose proof (Z_div_mod_eq_full n p). pose proof (Z.mod_pos_bound n p Hp). nia.
  Qed.

  Lemma qrfactor_w_ok : forall (E : lenv) safmin steps L cb A tau w m,
    ltb K (zero K) safmin = true -> steps_ok K safmin steps ->
    cfg_ok E L cb -> 0 <= e_lb E -> rows A < Z.of_nat (e_fuel E) ->
    mok L A -> mok L tau -> cols tau = 1 -> cols A <= rows tau -> cols A <= rows A -> 0 < cols A ->
    0 <= w_offset w <= w_bytes w -> w_bytes w < 2 ^ 64 -> cols A * e_p E <= w_bytes w - w_offset w -> armas_wptr w mod e_p E = 0 ->
    (forall a, in_bytes (armas_wptr w) (w_bytes w - w_offset w) (e_p E) a -> L a = true /\ ~ cell A a /\ ~ cell tau a /\ ~ inbuf cb (e_p E) a) ->
    disjoint A tau -> clear_of cb (e_p E) A -> clear_of cb (e_p E) tau ->
    exists m', armas_qrfactor_w K E safmin steps (Some A) tau (Some w) L m = Some ((0, Some w), m') /\
      let t' := fun q => elt m' tau q 0 in
      qr_result K (rows A) (cols A) (elt m A) (elt m' A) t' /\
      (has (e_opt E) ARMAS_NONNEG = true -> forall q, 0 <= q < cols A -> t' q = zero K \/ ltb K (elt m' A q q) (zero K) = false) /\
      (forall q, cols A <= q < rows tau -> t' q = elt m tau q 0) /\
      (forall a, ~ cell A a -> ~ cell tau a -> ~ in_bytes (armas_wptr w) (w_bytes w - w_offset w) (e_p E) a -> ~ inbuf cb (e_p E) a -> m' a = m a).
  Proof.
    intros E safmin steps L cb A tau w m Hsp Hst HC Hlb HfM OA OT Ct Rt HMN HN Ho Hb Hsz Hal HW DAt cA ct.
    set (M := rows A) in *. set (N := cols A) in *.
    assert (Hp : 0 < e_p E) by apply HC. assert (HB2 : 2 <= e_b2 E) by apply HC.
    assert (EB : armas_wbytes w = w_bytes w - w_offset w) by (unfold armas_wbytes, u64; apply Z.mod_small; lia).
    set (nb := w_bytes w - w_offset w) in *. set (n := nb / e_p E). set (b := armas_wptr w / e_p E).
    assert (HNn : N <= n) by (apply Z.div_le_lower_bound; lia).
    assert (HW' : forall a, ws b n a -> L a = true /\ ~ cell A a /\ ~ cell tau a /\ ~ inbuf cb (e_p E) a).
    { intros a Ha. apply HW. apply bytes_elt; auto. }
    set (P := fun m' : Z -> T => let t' := fun q => elt m' tau q 0 in
       qr_inv K M N N (elt m A) (elt m' A) t' /\ nn_diag K E N (elt m' A) t' /\
       (forall q, N <= q < rows tau -> elt m' tau q 0 = elt m tau q 0) /\
       (forall a, ~ cell A a -> ~ cell tau a -> ~ ws b n a -> ~ inbuf cb (e_p E) a -> m' a = m a)).
    assert (HPQ : forall m', P m' -> let t' := fun q => elt m' tau q 0 in
      qr_result K M N (elt m A) (elt m' A) t' /\
      (has (e_opt E) ARMAS_NONNEG = true -> forall q, 0 <= q < N -> t' q = zero K \/ ltb K (elt m' A q q) (zero K) = false) /\
      (forall q, N <= q < rows tau -> t' q = elt m tau q 0) /\
      (forall a, ~ cell A a -> ~ cell tau a -> ~ in_bytes (armas_wptr w) nb (e_p E) a -> ~ inbuf cb (e_p E) a -> m' a = m a)).
    { intros m' (P1 & P2 & P3 & P4). split; [apply inv_result; auto; lia|]. split; [exact P2|]. split; [exact P3|].
      intros a X1 X2 X3 X4. apply P4; auto. intros X. apply X3. apply bytes_elt; auto. }
    assert (HU : forall W, elems W = b -> wp (armas_unblk_qrfactor K E safmin steps A tau W) L m (fun _ m' => P m')).
    { intros W EW. assert (Ev : wvec N W = armas_make N 1 N b) by (unfold wvec; rewrite EW; reflexivity).
      assert (ww : forall a, cell (wvec N W) a -> ws b n a) by (intros a; rewrite Ev; apply make_ws; lia).
      apply (unblk_qr_wp K HF HO HE HS); auto; try (fold N; fold M; lia).
      - fold N. rewrite Ev. apply (make_mok N 1 b n); try lia. intros a Ha. apply HW'; auto.
      - intros a X1 X2. destruct (HW' a (ww a X1)) as (_ & X & _). auto.
      - intros a X1 X2. destruct (HW' a (ww a X1)) as (_ & _ & X & _). auto.
      - fold N. fold M. replace (Z.min M N) with N by lia. intros m' n' t' Q1 Q2 Q3 Q4. subst n' t'. split; [exact Q1|]. split; [exact Q2|]. split; [exact Q3|].
        intros a X1 X2 X3 X4. apply Q4; auto. }
    assert (HBl : forall lb, 0 < lb < N -> N * lb <= n -> wp (blk_qrfactor K E safmin steps A tau (armas_make lb lb lb b)
        (armas_make (N - lb) lb (N - lb) (b + lb * lb)) lb) L m (fun _ m' => P m')).
    { intros lb H1 H2. apply (blk_qr_wp K HF HO HE HS E safmin steps L cb A tau lb b n m); auto. intros m' t' Q1 Q2 Q3 Q4. split; [exact Q1|]. split; [exact Q2|]. split; [exact Q3|exact Q4]. }
    assert (Wn : forall r m', r = 0 -> Some (r, Some (armas_wsetpos w (armas_wpos w)), m' : Z -> T) = Some (0, Some w, m')).
    { intros r m' ->. f_equal. f_equal. f_equal. f_equal. unfold armas_wsetpos, armas_wpos. destruct w as [wb wy wo]. cbn [w_bytes w_offset w_buf]. destruct (wo <? wy); reflexivity. }
    unfold armas_qrfactor_w. cbv iota beta. replace (w_bytes w =? 0) with false by nia. replace (rows A <? cols A) with false by (fold M; fold N; lia).
    assert (Vt : armas_isvector tau = true) by (unfold armas_isvector; rewrite Ct; apply orb_true_r).
    rewrite Vt. cbn [negb orb]. unfold armas_size at 1. rewrite Ct. replace (rows tau * 1 <? cols A) with false by (fold N; lia).
    rewrite EB. fold N. replace (nb <? N * e_p E) with false by lia. cbv zeta. fold n b.
    set (lb := if (e_lb E >? 0) && (N >? e_lb E) && (n <? N * e_lb E) then if and_not3 (n / N) <? 32 then 0 else and_not3 (n / N) else e_lb E).
    assert (Hl : lb = 0 \/ N <= lb \/ 0 < lb < N /\ N * lb <= n).
    { unfold lb. destruct ((e_lb E >? 0) && (N >? e_lb E) && (n <? N * e_lb E)) eqn:El; [|lia].
      destruct (and_not3 (n / N) <? 32) eqn:E3; [left; reflexivity|]. right; right. unfold and_not3 in *.
      pose proof (Z.mod_pos_bound (n / N) 4 ltac:(lia)). pose proof (Z.mul_div_le n N ltac:(lia)). pose proof (Z.div_lt_upper_bound n N (e_lb E) ltac:(lia) ltac:(lia)). nia. }
    destruct ((lb =? 0) || (N <=? lb)) eqn:Eu.
    - destruct (HU (armas_make N 1 N b) eq_refl) as (r & m' & R1 & R2). exists m'. split; [|apply HPQ; exact R2].
      rewrite run_bind. rewrite R1. apply Wn. reflexivity.
    - destruct (HBl lb ltac:(lia) ltac:(lia)) as (r & m' & R1 & R2). exists m'. split; [|apply HPQ; exact R2].
      rewrite run_bind. change (armas_size (armas_make lb lb lb b)) with (lb * lb). rewrite R1. apply Wn. reflexivity.
  Qed.
End Q.

(* ---- C79: armas_qrfactor_w, armas_qrfactor ---- *)
Theorem C79_qrfactor_w_partial : forall T (K : num T), is_field K -> is_ordered K -> eqb_ok K -> sqrt_ok K ->
  forall (E : lenv) safmin steps L cb A tau w m,
  ltb K (zero K) safmin = true -> steps_ok K safmin steps ->
  cfg_ok E L cb -> 0 <= e_lb E -> rows A < Z.of_nat (e_fuel E) ->
  mok L A -> mok L tau -> cols tau = 1 -> cols A <= rows tau -> cols A <= rows A -> 0 < cols A ->
  0 <= w_offset w <= w_bytes w -> w_bytes w < 2 ^ 64 -> cols A * e_p E <= w_bytes w - w_offset w -> armas_wptr w mod e_p E = 0 ->
  (forall a, in_bytes (armas_wptr w) (w_bytes w - w_offset w) (e_p E) a -> L a = true /\ ~ cell A a /\ ~ cell tau a /\ ~ inbuf cb (e_p E) a) ->
  disjoint A tau -> clear_of cb (e_p E) A -> clear_of cb (e_p E) tau ->
  exists m', armas_qrfactor_w K E safmin steps (Some A) tau (Some w) L m = Some ((0, Some w), m') /\
    let t' := fun q => elt m' tau q 0 in
    qr_result K (rows A) (cols A) (elt m A) (elt m' A) t' /\
    (has (e_opt E) ARMAS_NONNEG = true -> forall q, 0 <= q < cols A -> t' q = zero K \/ ltb K (elt m' A q q) (zero K) = false) /\
    (forall q, cols A <= q < rows tau -> t' q = elt m tau q 0) /\
    (forall a, ~ cell A a -> ~ cell tau a -> ~ in_bytes (armas_wptr w) (w_bytes w - w_offset w) (e_p E) a -> ~ inbuf cb (e_p E) a -> m' a = m a).
Proof. intros T K HF HO HE HS. exact (qrfactor_w_ok K HF HO HE HS). Qed.
Print Assumptions C79_qrfactor_w_partial.

(* with its own workspace, for which calloc returns b *)
Theorem C79_qrfactor_partial : forall T (K : num T), is_field K -> is_ordered K -> eqb_ok K -> sqrt_ok K ->
  forall (E : lenv) safmin steps L cb A tau b m,
  let size := cols A * Z.max 1 (e_lb E) * e_p E in
  ltb K (zero K) safmin = true -> steps_ok K safmin steps ->
  cfg_ok E L cb -> 0 <= e_lb E -> rows A < Z.of_nat (e_fuel E) ->
  mok L A -> mok L tau -> cols tau = 1 -> cols A <= rows tau -> cols A <= rows A -> 0 < cols A ->
  size < 2 ^ 64 -> b mod e_p E = 0 ->
  (forall a, in_bytes b size (e_p E) a -> L a = true /\ ~ cell A a /\ ~ cell tau a /\ ~ inbuf cb (e_p E) a) ->
  disjoint A tau -> clear_of cb (e_p E) A -> clear_of cb (e_p E) tau ->
  exists m', armas_qrfactor K E safmin steps (Some b) (Some A) tau L m = Some (0, m') /\
    let t' := fun q => elt m' tau q 0 in
    qr_result K (rows A) (cols A) (elt m A) (elt m' A) t' /\
    (has (e_opt E) ARMAS_NONNEG = true -> forall q, 0 <= q < cols A -> t' q = zero K \/ ltb K (elt m' A q q) (zero K) = false) /\
    (forall q, cols A <= q < rows tau -> t' q = elt m tau q 0) /\
    (forall a, ~ cell A a -> ~ cell tau a -> ~ in_bytes b size (e_p E) a -> ~ inbuf cb (e_p E) a -> m' a = m a).
Proof.
  intros T K HF HO HE HS E safmin steps L cb A tau b m size Hsp Hst HC Hlb Hf OA OT Ct Rt HMN HN Hsz Hal HW DAt cA ct.
  assert (Hp : 0 < e_p E) by apply HC.
  set (n := if (e_lb E >? 0) && (cols A >? e_lb E) then cols A * e_lb E else cols A).
  assert (Hn : cols A <= n /\ n * e_p E <= size).
  { unfold n, size. destruct (e_lb E >? 0) eqn:E1; cbn [andb]; [destruct (cols A >? e_lb E); nia|nia]. }
  set (w := armas_walloc b (n * e_p E)).
  assert (Hw : forall a, in_bytes (armas_wptr w) (w_bytes w - w_offset w) (e_p E) a -> in_bytes b size (e_p E) a).
  { intros a. unfold w, armas_walloc, armas_wptr, in_bytes. cbn [w_buf w_bytes w_offset]. lia. }
  destruct (C79_qrfactor_w_partial T K HF HO HE HS E safmin steps L cb A tau w m) as (m' & R1 & R2 & R3 & R4 & R5);
    [exact Hsp|exact Hst|exact HC|exact Hlb|exact Hf|exact OA|exact OT|exact Ct|exact Rt|exact HMN|exact HN|
     cbn; nia|cbn; lia|cbn; nia|unfold w, armas_walloc, armas_wptr; cbn [w_buf w_offset]; rewrite Z.add_0_r; exact Hal|intros a Ha; apply HW; auto|exact DAt|exact cA|exact ct|].
  exists m'. split; [|split; [exact R2|split; [exact R3|split; [exact R4|]]]].
  - assert (Q : armas_qrfactor_w K E safmin steps (Some A) tau (Some (mkwbuf 0 0 0)) L m = Some ((0, Some (mkwbuf 0 (n * e_p E) 0)), m)) by reflexivity.
    unfold armas_qrfactor. rewrite run_bind, Q. cbv iota beta. cbn [fst snd w_bytes]. change (0 <? 0) with false. cbv iota zeta. replace (n * e_p E >? 0) with true by nia.
    rewrite run_bind. fold w. rewrite R1. reflexivity.
  - intros a X1 X2 X3 X4. apply R5; auto.
Qed.
Print Assumptions C79_qrfactor_partial.

(* bad arguments are reported and nothing is written *)
Theorem C79_qrfactor_errors : forall T (K : num T) (E : lenv) safmin steps L A tau wb m,
  let bad r := exists w', armas_qrfactor_w K E safmin steps A tau wb L m = Some ((- r, w'), m) in
  (A = None -> bad ARMAS_EINVAL) /\
  (forall V, A = Some V -> match wb with Some w => w_bytes w <> 0 | None => True end ->
     (rows V < cols V -> bad ARMAS_ESIZE) /\
     (cols V <= rows V -> ~ isvec tau \/ rows tau * cols tau < cols V -> bad ARMAS_EINVAL) /\
     (cols V <= rows V -> isvec tau -> cols V <= rows tau * cols tau ->
        match wb with Some w => 0 <= w_offset w <= w_bytes w /\ w_bytes w < 2 ^ 64 /\ w_bytes w - w_offset w < cols V * e_p E | None => True end -> bad ARMAS_EWORK)).
Proof.
  intros T K E safmin steps L A tau wb m bad. split; [intros ->; exists wb; reflexivity|].
  intros V -> Hw. unfold bad, armas_qrfactor_w. clear bad.
  assert (Eq : match wb with Some w => w_bytes w =? 0 | None => false end = false) by (destruct wb; lia).
  rewrite Eq. split; [|split].
  - intros H. replace (rows V <? cols V) with true by lia. exists wb. reflexivity.
  - intros H H'. replace (rows V <? cols V) with false by lia. exists wb.
    replace (negb (armas_isvector tau) || (armas_size tau <? cols V)) with true; [reflexivity|].
    symmetry. apply orb_true_iff. destruct H' as [H'|H']; [left|right; unfold armas_size; lia].
    destruct (armas_isvector tau) eqn:X; auto. exfalso. apply H'. apply isvector_isvec. exact X.
  - intros H H1 H2 H3. replace (rows V <? cols V) with false by lia. apply isvector_isvec in H1. rewrite H1. cbn [negb orb].
    unfold armas_size at 1. replace (rows tau * cols tau <? cols V) with false by lia. exists wb. destruct wb as [w|]; [|reflexivity].
    replace (armas_wbytes w <? cols V * e_p E) with true; [reflexivity|]. symmetry. apply Z.ltb_lt. unfold armas_wbytes, u64. rewrite Z.mod_small by lia. lia.
Qed.
Print Assumptions C79_qrfactor_errors.

(* rationals with the square roots that are exact *)
Definition qsqrt (q : Qc) : Qc := Q2Qc (QArith_base.Qmake (Z.sqrt (QArith_base.Qnum (this q))) (Pos.sqrt (QArith_base.Qden (this q)))).
Definition Qsnum : num Qc := mknum Qc (zero Qcnum) (one Qcnum) (add Qcnum) (sub Qcnum) (mul Qcnum) (div Qcnum) (opp Qcnum) (abs Qcnum) qsqrt (eqb Qcnum) (ltb Qcnum).
Definition qc (n : Z) : Qc := Q2Qc (QArith_base.inject_Z n).
Definition qr_E (opt lb : Z) (cb : option cbuf) : lenv := mklenv 20 1024 256 opt cb 64 64 160 8 lb.
Definition qr_t (n : Z) : view := mkview 300 7 n 1.
Definition qr_f (opt lb : Z) (cb : option cbuf) (r c : Z) (tau : view) (m : Z -> Qc) :=
  armas_qrfactor_w Qsnum (qr_E opt lb cb) (Q2Qc (QArith_base.Qmake 1 1000)) (fun _ => 3%nat) (Some (lu_A r c)) tau (Some (mkwbuf 4000 320 0)) cp_L m.

Ltac qrun E := let W := fresh "W" in let w := fresh "w" in let m' := fresh "m'" in
  match goal with |- exists w m', ?run = _ /\ @?P m' =>
    assert (W : match run with Some ((r, _), m') => r = 0 /\ P m' | None => False end);
    [|destruct run as [[[? w] m']|] eqn:E; [|contradiction]; destruct W as (-> & W); exists w, m'; split; [reflexivity|exact W]] end.

(* the option ARMAS_ONONNEG (0x4000, armas.h:123: compute Householder with non-negative diagonal) has no effect:
   the routines look at ARMAS_NONNEG *)
Theorem C79_qr_ononneg_refuted : let m a := if a =? 200 then qc 3 else if a =? 201 then qc 4 else qc 0 in
  exists w m', qr_f 16384 64 (Some ge_cb) 2 1 (qr_t 1) m = Some ((0, w), m') /\
    Qc_eq_bool (elt m' (lu_A 2 1) 0 0) (qc (-5)) = true /\ Qc_eq_bool (elt m' (qr_t 1) 0 0) (Q2Qc (QArith_base.Qmake 8 5)) = true.
Proof. intros m. qrun E. vm_compute. split; [reflexivity|]. split; reflexivity. Qed.
Print Assumptions C79_qr_ononneg_refuted.

(* nor is the diagonal non-negative with both where nothing is left below it *)
Theorem C79_qr_nonneg_refuted : let m a := if a =? 200 then qc (-1) else qc 0 in
  exists w m', qr_f (16384 + ARMAS_NONNEG) 64 (Some ge_cb) 1 1 (qr_t 1) m = Some ((0, w), m') /\
    Qc_eq_bool (elt m' (lu_A 1 1) 0 0) (qc (-1)) = true.
Proof. intros m. qrun E. vm_compute. split; reflexivity. Qed.
Print Assumptions C79_qr_nonneg_refuted.

(* without scratch memory for the matrix products the blocked version returns 0 and a wrong R: the
   matrix is upper triangular, all tau are 0, and R(0,1) is 0 where A(0,1) is 2 *)
Theorem C79_qr_nomem_refuted : let m a := if a =? 200 then qc 1 else if a =? 207 then qc 2 else if a =? 208 then qc 3 else qc 0 in
  exists w m', qr_f 0 1 None 3 2 (qr_t 2) m = Some ((0, w), m') /\
    Qc_eq_bool (elt m' (qr_t 2) 0 0) (qc 0) && Qc_eq_bool (elt m' (qr_t 2) 1 0) (qc 0) = true /\
    Qc_eq_bool (elt m (lu_A 3 2) 0 1) (qc 2) = true /\ Qc_eq_bool (elt m' (lu_A 3 2) 0 1) (qc 0) = true.
Proof. intros m. qrun E. vm_compute. split; [reflexivity|]. split; [reflexivity|]. split; reflexivity. Qed.
Print Assumptions C79_qr_nomem_refuted.

(* a row vector is taken for tau (qr.c documents EINVAL); only its first element is used and the
   second reflector is never applied or recorded: the second column (0, 3, 4) comes out as (0, -5, 1/2)
   but the element 1 of tau stays as it was, here 0 *)
Theorem C79_qr_rowtau_refuted : let m a := if a =? 200 then qc 1 else if a =? 208 then qc 3 else if a =? 209 then qc 4 else qc 0 in
  let tau := mkview 300 7 1 2 in
  exists w m', qr_f 0 64 (Some ge_cb) 3 2 tau m = Some ((0, w), m') /\
    Qc_eq_bool (elt m' tau 0 0) (qc 0) && Qc_eq_bool (elt m' tau 0 1) (qc 0) = true /\
    Qc_eq_bool (elt m (lu_A 3 2) 1 1) (qc 3) = true /\ Qc_eq_bool (elt m' (lu_A 3 2) 1 1) (qc (-5)) = true.
Proof. intros m tau. qrun E. vm_compute. split; [reflexivity|]. split; [reflexivity|]. split; reflexivity. Qed.
Print Assumptions C79_qr_rowtau_refuted.

(* a matrix without columns is rejected for lack of workspace *)
Theorem C79_qr_empty_refuted : forall T (K : num T) (E : lenv) safmin steps L A tau ptr m,
  cols A = 0 -> 0 <= rows A -> isvec tau -> 0 <= rows tau * cols tau ->
  armas_qrfactor K E safmin steps ptr (Some A) tau L m = Some (- ARMAS_EWORK, m).
Proof.
  intros T K E safmin steps L A tau ptr m H0 H1 H2 H3.
  assert (Q : armas_qrfactor_w K E safmin steps (Some A) tau (Some (mkwbuf 0 0 0)) L m = Some ((0, Some (mkwbuf 0 0 0)), m)).
  { unfold armas_qrfactor_w. cbn [w_bytes w_buf w_offset]. change (0 =? 0) with true. cbv iota zeta. rewrite H0.
    replace ((e_lb E >? 0) && (0 >? e_lb E)) with false by lia. reflexivity. }
  destruct (C79_qrfactor_errors T K E safmin steps L (Some A) tau None m) as (_ & X). destruct (X A eq_refl I) as (_ & _ & Y).
  destruct Y as (w' & Y); auto; try lia.
  unfold armas_qrfactor. rewrite run_bind, Q. cbv iota beta. cbn [fst snd w_bytes]. change (0 <? 0) with false. change (0 >? 0) with false. cbv iota zeta.
  rewrite run_bind, Y. reflexivity.
Qed.
Print Assumptions C79_qr_empty_refuted.

(* blocks of two columns of a 5 by 3 matrix *)
Lemma qr_cfg : forall lb, cfg_ok (lu_E lb) cp_L ge_cb.
Proof.
  intros lb. destruct (lu_env lb 1 1 ltac:(lia) ltac:(lia)) as ((_ & _ & _ & _ & _ & B1 & B2 & B3 & B4 & B5 & B6 & B7 & B8 & B9 & B10 & B11) & _ & _).
  split; [cbn; lia|]. split; [cbn; lia|]. split; [reflexivity|]. repeat (split; [assumption|]). split; [|exact B11].
  intros a Ha. destruct (B10 a Ha) as (X & _). split; [exact X|]. assert (N : ~ cell nov a) by (intros (i & j & (P1 & P2) & _); cbn in *; lia). auto.
Qed.

Lemma qr_cells : forall r c tr, 0 <= r <= 7 -> 0 <= c <= 7 -> 0 <= tr <= 7 ->
  mok cp_L (lu_A r c) /\ mok cp_L (qr_t tr) /\ disjoint (lu_A r c) (qr_t tr) /\ clear_of ge_cb 8 (lu_A r c) /\ clear_of ge_cb 8 (qr_t tr) /\
  (forall a, in_bytes 4000 320 8 a -> cp_L a = true /\ ~ cell (lu_A r c) a /\ ~ cell (qr_t tr) a /\ ~ inbuf ge_cb 8 a).
Proof.
  intros r c tr Hr Hc Ht.
  assert (CA : forall a, cell (lu_A r c) a -> 200 <= a < 250) by (intros a (i & j & (P1 & P2) & ->); unfold lu_A in *; cbn [rows cols elems step] in *; lia).
  assert (CT : forall a, cell (qr_t tr) a -> 300 <= a < 310) by (intros a (i & j & (P1 & P2) & ->); unfold qr_t in *; cbn [rows cols elems step] in *; lia).
  split; [split; [repeat split; cbn; lia|intros a Ha; apply CA in Ha; unfold cp_L; lia]|].
  split; [split; [repeat split; cbn; lia|intros a Ha; apply CT in Ha; unfold cp_L; lia]|].
  split; [intros a X1 X2; apply CA in X1; apply CT in X2; lia|].
  split; [intros a (X1 & X2) X3; apply CA in X3; cbn in X1; lia|]. split; [intros a (X1 & X2) X3; apply CT in X3; cbn in X1; lia|].
  intros a (X1 & X2). assert (500 <= a < 540) by lia. split; [unfold cp_L; lia|].
  split; [intros X; apply CA in X; lia|]. split; [intros X; apply CT in X; lia|]. intros (X & _). cbn in X. lia.
Qed.

Example C79_nonvacuous : exists m', armas_qrfactor Rnum (lu_E 2) (/ 2)%R Rsteps (Some 4000) (Some (lu_A 5 3)) (qr_t 3) cp_L (fun a => IZR a) = Some (0, m') /\
  qr_result Rnum 5 3 (elt (fun a => IZR a) (lu_A 5 3)) (elt m' (lu_A 5 3)) (fun q => elt m' (qr_t 3) q 0).
Proof.
  destruct (qr_cells 5 3 3) as (X1 & X2 & X3 & X4 & X5 & X6); try lia.
  destruct (C79_qrfactor_partial R Rnum R_field R_ordered R_eqb R_sqrt_ok (lu_E 2) (/ 2)%R Rsteps cp_L ge_cb (lu_A 5 3) (qr_t 3) 4000 (fun a => IZR a))
    as (m' & R1 & R2 & _); [apply Rhalf|apply Rsteps_ok|apply qr_cfg|cbn; lia|cbn; lia|exact X1|exact X2|reflexivity|cbn; lia|cbn; lia|cbn; lia|
     cbn; lia|reflexivity| |exact X3|exact X4|exact X5|].
  - intros a (Y1 & Y2). apply X6. split; [exact Y1|]. cbn in *. lia.
  - exists m'. split; [exact R1|exact R2].
Qed.

(* ---- C80: armas_qrreflector ---- *)
(* H_0*...*H_{N-1} = I - Y*T*Y^T for the upper triangular T that is stored, if T was zero where tau is
   and the last tau is zero when A is square *)
Theorem C80_qrreflector_partial : forall T (K : num T), is_field K -> eqb_ok K ->
  forall (E : lenv) L Tv A tau m,
  let M := rows A in let N := cols A in let t := fun q => elt m tau q 0 in
  0 <= e_b1 E -> 2 <= e_b2 E -> M < Z.of_nat (e_fuel E) ->
  mok L A -> mok L tau -> mok L Tv -> cols tau = 1 -> N <= rows tau -> N <= M -> N <= rows Tv -> N <= cols Tv ->
  disjoint Tv A -> disjoint Tv tau ->
  (forall q p, 0 <= q <= p -> p < N -> t p = zero K -> elt m Tv q p = zero K) ->
  (N = M -> 0 < N -> t (N - 1) = zero K) ->
  exists m', armas_qrreflector K E Tv A tau L m = Some (0, m') /\
    (forall z i, 0 <= i < M -> qapply K M (elt m A) t (Z.to_nat N) z i =
       sub K (z i) (vsum K N (fun q => mul K (hvec K (elt m A) q i)
         (vsum K N (fun p => mul K (upper K (elt m' Tv) q p) (inner K M (hvec K (elt m A) p) z)))))) /\
    (forall q p, pos Tv q p -> p < q \/ N <= p -> elt m' Tv q p = elt m Tv q p) /\ only_changes Tv m m'.
Proof.
  intros T K HF HE E L Tv A tau m M N t H1 H2 H3 OA OT OV Ct Rt HMN RT CT D1 D2 HZ Hl.
  assert (HN : 0 <= N) by apply OA.
  assert (W : wp (armas_unblk_qr_reflector K E Tv A tau) L m (fun _ m' =>
    (forall p, 0 <= p < N -> T_col K M (hvec K (elt m A)) t (elt m Tv) (elt m' Tv) p) /\
       (forall q p, pos Tv q p -> p < q \/ N <= p -> elt m' Tv q p = elt m Tv q p) /\ only_changes Tv m m')).
  { apply (refl_wp K HF HE); auto; fold M N; try lia. }
  destruct W as (r & m' & R1 & R2 & R3 & R4). exists m'. split.
  - unfold armas_qrreflector. fold N. replace (cols Tv <? N) with false by lia. replace (rows Tv <? N) with false by lia. cbn [orb].
    rewrite run_bind, R1. reflexivity.
  - split; [|split; auto]. intros z i Hi. rewrite (T_q K HF M _ _ _ (upper K (elt m' Tv))); auto.
    + rewrite Z2Nat.id by lia. reflexivity.
    + rewrite Z2Nat.id by lia. apply (T_cols_T K HF M N _ _ (elt m Tv)); auto.
Qed.
Print Assumptions C80_qrreflector_partial.

(* too small a T is reported *)
Theorem C80_qrreflector_errors : forall T (K : num T) (E : lenv) L Tv A tau m, cols Tv < cols A \/ rows Tv < cols A ->
  armas_qrreflector K E Tv A tau L m = Some (-1, m).
Proof.
  intros T K E L Tv A tau m H. unfold armas_qrreflector. replace ((cols Tv <? cols A) || (rows Tv <? cols A)) with true by lia. reflexivity.
Qed.
Print Assumptions C80_qrreflector_errors.

(* T is not cleared: for a factored square matrix, of which the last tau is 0, the last column of T
   keeps what was there, and I - Y*T*Y^T is not the product of the reflectors *)
Theorem C80_qrreflector_cleared_refuted : forall T (K : num T), is_field K -> eqb_ok K ->
  forall (E : lenv) L Tv A tau m, let t := fun q => elt m tau q 0 in
  0 <= e_b1 E -> 2 <= e_b2 E -> 1 < Z.of_nat (e_fuel E) -> mok L A -> mok L tau -> mok L Tv -> cols tau = 1 -> 1 <= rows tau ->
  rows A = 1 -> cols A = 1 -> 1 <= rows Tv -> 1 <= cols Tv -> disjoint Tv A -> disjoint Tv tau ->
  t 0 = zero K -> elt m Tv 0 0 <> zero K ->
  exists m', armas_qrreflector K E Tv A tau L m = Some (0, m') /\ elt m' Tv 0 0 = elt m Tv 0 0 /\
    exists z, qapply K 1 (elt m A) t 1 z 0 <>
       sub K (z 0) (vsum K 1 (fun q => mul K (hvec K (elt m A) q 0)
         (vsum K 1 (fun p => mul K (upper K (elt m' Tv) q p) (inner K 1 (hvec K (elt m A) p) z))))).
Proof.
  intros T K HF HE E L Tv A tau m t H1 H2 H3 OA OT OV Ct Rt RA CA RT CT D1 D2 Ht Hn.
  pose proof (Field_theory.F_R HF) as HR.
  assert (W : wp (armas_unblk_qr_reflector K E Tv A tau) L m (fun _ m' =>
    T_col K 1 (hvec K (elt m A)) t (elt m Tv) (elt m' Tv) 0)).
  { apply (refl_wp K HF HE); auto; try lia.
    - rewrite CA. intros _ _. exact Ht.
    - rewrite CA, RA. intros m' X _ _. apply X. lia. }
  destruct W as (r & m' & R1 & R2). exists m'. split.
  - unfold armas_qrreflector. rewrite CA. replace (cols Tv <? 1) with false by lia. replace (rows Tv <? 1) with false by lia. cbn [orb].
    rewrite run_bind, R1. reflexivity.
  - destruct R2 as [(_ & R2)|(R2 & _)]; [|contradiction]. specialize (R2 0 ltac:(lia)). split; [exact R2|].
    exists (fun _ => one K). unfold inner. rewrite !(vsum_1 K HR). cbn [qapply]. unfold hmap, reflect, inner. rewrite (vsum_1 K HR). change (Z.of_nat 0) with 0. rewrite Ht.
    unfold hvec, upper. change (0 <? 0) with false. change (0 =? 0) with true. cbv iota. rewrite R2. intros X. apply Hn.
    revert X. apply (cancel1 K HF).
Qed.
Print Assumptions C80_qrreflector_cleared_refuted.

(* reflectors of a square matrix of which the last tau is not 0: the column is not scaled by -tau *)
Theorem C80_qrreflector_square_refuted : let Tv := mkview 400 7 2 2 in let A := lu_A 2 2 in
  let m a := if a =? 201 then 2 else if (a =? 300) || (a =? 301) then 3 else 0 in
  exists m', armas_qrreflector Znum (lu_E 64) Tv A (qr_t 2) cp_L m = Some (0, m') /\
    elt m' Tv 0 0 = 3 /\ elt m' Tv 1 1 = 3 /\ elt m' Tv 0 1 = 6 /\
    exists z, qapply Znum 2 (elt m A) (fun q => elt m (qr_t 2) q 0) 2 z 0 <>
       sub Znum (z 0) (vsum Znum 2 (fun q => mul Znum (hvec Znum (elt m A) q 0)
         (vsum Znum 2 (fun p => mul Znum (upper Znum (elt m' Tv) q p) (inner Znum 2 (hvec Znum (elt m A) p) z))))).
Proof.
  intros Tv A m.
  assert (W : match armas_qrreflector Znum (lu_E 64) Tv A (qr_t 2) cp_L m with
    | Some (r, m') => r = 0 /\ elt m' Tv 0 0 = 3 /\ elt m' Tv 1 1 = 3 /\ elt m' Tv 0 1 = 6 | None => False end).
  { vm_compute. split; [reflexivity|]. split; [reflexivity|]. split; reflexivity. }
  destruct (armas_qrreflector Znum (lu_E 64) Tv A (qr_t 2) cp_L m) as [[r m']|]; [|contradiction]. destruct W as (-> & W1 & W2 & W3).
  exists m'. split; [reflexivity|]. split; [exact W1|]. split; [exact W2|]. split; [exact W3|].
  exists (fun i => i).
  assert (V2 : forall f, vsum Znum 2 f = f 0 + f 1) by (intros f; change 2 with (1 + 1); rewrite (vsum_S Znum) by lia; rewrite (vsum_1 Znum Z_ring); reflexivity).
  rewrite !V2. cbv beta. unfold upper. change (0 <? 0) with false. change (1 <? 0) with false. change (0 <? 1) with true. change (1 <? 1) with false.
  cbv iota. rewrite W1, W2, W3. vm_compute. discriminate.
Qed.
Print Assumptions C80_qrreflector_square_refuted.

Example C80_nonvacuous : exists m', armas_qrreflector Qcnum (lu_E 64) (mkview 400 7 2 2) (lu_A 3 2) (qr_t 2) cp_L (fun a => if 400 <=? a then qc 0 else qc a) = Some (0, m') /\
  forall z i, 0 <= i < 3 -> qapply Qcnum 3 (fun i j => qc (200 + j * 7 + i)) (fun q => qc (300 + q)) 2 z i =
       sub Qcnum (z i) (vsum Qcnum 2 (fun q => mul Qcnum (hvec Qcnum (fun i j => qc (200 + j * 7 + i)) q i)
         (vsum Qcnum 2 (fun p => mul Qcnum (upper Qcnum (elt m' (mkview 400 7 2 2)) q p) (inner Qcnum 3 (hvec Qcnum (fun i j => qc (200 + j * 7 + i)) p) z))))).
Proof.
  destruct (qr_cells 3 2 2) as (X1 & X2 & X3 & X4 & X5 & X6); try lia. set (m := fun a => if 400 <=? a then qc 0 else qc a).
  assert (CT : forall a, cell (mkview 400 7 2 2) a -> 400 <= a < 410) by (intros a (i & j & (P1 & P2) & ->); cbn [rows cols elems step] in *; lia).
  destruct (C80_qrreflector_partial Qc Qcnum Qc_field Qc_eqb (lu_E 64) cp_L (mkview 400 7 2 2) (lu_A 3 2) (qr_t 2) m) as (m' & R1 & R2 & _);
    [cbn; lia|cbn; lia|cbn; lia|exact X1|exact X2| |reflexivity|cbn; lia|cbn; lia|cbn; lia|cbn; lia| | | | |].
  - split; [repeat split; cbn; lia|intros a Ha; apply CT in Ha; unfold cp_L; lia].
  - intros a Y1 (i & j & (P1 & P2) & ->). apply CT in Y1. unfold lu_A in *. cbn [rows cols elems step] in *. lia.
  - intros a Y1 (i & j & (P1 & P2) & ->). apply CT in Y1. unfold qr_t in *. cbn [rows cols elems step] in *. lia.
  - intros q p Hq Hp _. change (cols (lu_A 3 2)) with 2 in Hp. unfold elt, m. cbn [elems step]. replace (400 <=? 400 + p * 7 + q) with true by lia. reflexivity.
  - intros X. cbn in X. lia.
  - exists m'. split; [exact R1|]. intros z i Hi. specialize (R2 z i Hi). change (Z.to_nat (cols (lu_A 3 2))) with 2%nat in R2.
    change (rows (lu_A 3 2)) with 3 in R2. change (cols (lu_A 3 2)) with 2 in R2.
    assert (Ea : forall i j, 0 <= i < 3 -> 0 <= j < 2 -> elt m (lu_A 3 2) i j = qc (200 + j * 7 + i)).
    { intros i' j Hi' Hj. unfold elt, m, lu_A. cbn [elems step]. replace (400 <=? 200 + j * 7 + i') with false by lia. reflexivity. }
    assert (Et : forall q, 0 <= q < 2 -> elt m (qr_t 2) q 0 = qc (300 + q)).
    { intros q Hq. unfold elt, m, qr_t. cbn [elems step]. replace (400 <=? 300 + 0 * 7 + q) with false by lia. reflexivity. }
    assert (Eh : forall q i, 0 <= q < 2 -> 0 <= i < 3 -> hvec Qcnum (elt m (lu_A 3 2)) q i = hvec Qcnum (fun i j => qc (200 + j * 7 + i)) q i).
    { intros q i' Hq Hi'. apply (hvec_ext Qcnum 3); auto. intros. apply Ea; lia. }
    rewrite <- (qapply_ext Qcnum 3 (elt m (lu_A 3 2)) _ (fun q => elt m (qr_t 2) q 0) _ 2 z z); auto.
    + rewrite R2. f_equal. apply vsum_ext. intros q Hq. rewrite Eh by auto. apply (f_equal (mul Qcnum _)). apply vsum_ext. intros p Hp.
      apply (f_equal (mul Qcnum _)). apply (inner_ext Qcnum); auto.
    + intros r q Hq Hr. apply Ea; lia.
Qed.
