(* Properties_QrBld.v: C83 forming the orthogonal matrix of a QR factorization. *)
From Coq Require Import ZArith Lia Bool ZifyBool Ring Field Reals Lra QArith.Qcanon List.
Import ListNotations.
From Verif Require Import Mem MView SpecView PView PSub Hoare MFlags MBase MCopy PUpd PCopy
  MNum SpecNum MBlas1 PSum PBlas1 MElem PElem MBlas2 PMvec PBlas2 PFrame SpecTrm MTrm PTrm MGemm PGemm PMatcpy PMult
  MTrsm PTrsm MTrmm PTrmm PNorm MLap PUpdTrm PLap MHouse SpecHouse SpecQr PHouse MQr PQrA PQrB PQr PQrT PUpdQr PQrF MQrMul PQrMul MQrBld PQrBld Inst
  Properties_Copy Properties_Gemm Properties_Lu Properties_House Properties_Qr Properties_QrMul.
Local Open Scope Z_scope.
Local Open Scope prog_scope.

Ltac lia := nobool; zlia.

(* the reflectors with tau = 0 have the vector (1, 0, 0, ...): true of what armas_qrfactor leaves (C79) *)
Definition unit_at_zero {T} (K : num T) (M k : Z) (a : Z -> Z -> T) (t : Z -> T) : Prop :=
  forall q i, 0 <= q < k -> q < i < M -> t q = zero K -> a i q = zero K.

Section Z0.
  Context {T : Type} (K : num T) (HR : is_ring K).
  Let HR' : ring_theory (zero K) (one K) (add K) (mul K) (sub K) (opp K) eq := HR.
  Add Ring Kr0 : HR'.
  Lemma mz : forall x, mul K x (zero K) = zero K. Proof. intros. ring. Qed.
End Z0.

Section Q.
  Context {T : Type} (K : num T).
  Hypotheses (HF : is_field K) (HE : eqb_ok K).
  Let HR : is_ring K := Field_theory.F_R HF.

  Lemma qrbuild_lb_ok : forall n wsz lb, 0 < n -> 0 <= lb -> n <= wsz ->
    let l := qrbuild_lb n wsz lb in l = 0 \/ n <= l \/ 0 < l < n /\ n * l <= wsz.
  Proof.
    intros n wsz lb Hn Hlb Hw l. unfold l, qrbuild_lb. destruct ((lb >? 0) && (n >? lb) && (wsz <? n * lb)) eqn:El; [|nia].
    cbv zeta. pose proof (Z.mul_div_le wsz n Hn). set (hh := wsz / n) in *. destruct (and_not3 hh <? 32) eqn:E3; [left; reflexivity|right; right]. unfold and_not3 in *.
    pose proof (Z.mod_pos_bound hh 4 ltac:(lia)). set (l' := hh - hh mod 4) in *.
    assert (0 < l' <= hh) by lia. split; [|nia]. split; [lia|].
    assert (n * l' < n * lb) by nia. nia.
  Qed.

  Lemma qrbuild_w_ok : forall (E : lenv) L cb A tau k w (m : Z -> T),
    let n := w_bytes w - w_offset w in let lb := qrbuild_lb (cols A) (n / e_p E) (e_lb E) in
    cfg_ok E L cb -> 0 <= e_lb E -> rows A < Z.of_nat (e_fuel E) ->
    mok L A -> mok L tau -> cols tau = 1 -> rows tau = cols A -> cols A <= rows A -> 0 < cols A -> 0 <= k <= cols A ->
    0 <= w_offset w <= w_bytes w -> w_bytes w < 2 ^ 64 -> cols A * e_p E <= n -> armas_wptr w mod e_p E = 0 ->
    (forall a, in_bytes (armas_wptr w) n (e_p E) a -> L a = true /\ ~ cell A a /\ ~ cell tau a /\ ~ inbuf cb (e_p E) a) ->
    disjoint A tau -> clear_of cb (e_p E) A -> clear_of cb (e_p E) tau ->
    (cols A = rows A -> elt m tau (cols A - 1) 0 = zero K) ->
    (0 < lb < cols A -> unit_at_zero K (rows A) k (elt m A) (fun q => elt m tau q 0)) ->
    exists m', armas_qrbuild_w K E (Some A) (Some tau) k (Some w) L m = Some ((0, Some w), m') /\
      (forall i j, pos A i j -> elt m' A i j = qmat K (rows A) (elt m A) (fun q => elt m tau q 0) (Z.to_nat k) i j) /\
      (forall a, ~ cell A a -> ~ in_bytes (armas_wptr w) n (e_p E) a -> ~ inbuf cb (e_p E) a -> m' a = m a).
  Proof.
    intros E L cb A tau k w m n lb HC Hlb HfM OA OT Ct Rt HMN HN Hk Ho Hb Hsz Hal HW DAt cA ct Hlast Hcl.
    set (M := rows A) in *. set (N := cols A) in *.
    assert (Hp : 0 < e_p E) by apply HC. assert (HB2 : 2 <= e_b2 E) by apply HC. assert (HB1 : 0 <= e_b1 E) by apply HC.
    assert (EB : armas_wbytes w = n) by (unfold armas_wbytes, u64; apply Z.mod_small; lia).
    set (ne := n / e_p E). set (b := armas_wptr w / e_p E).
    assert (HNn : N <= ne) by (apply Z.div_le_lower_bound; lia).
    assert (HW' : forall a, ws b ne a -> L a = true /\ ~ cell A a /\ ~ cell tau a /\ ~ inbuf cb (e_p E) a).
    { intros a Ha. apply HW. apply bytes_elt; auto. }
    set (P := fun m' : Z -> T => (forall i j, pos A i j -> elt m' A i j = qmat K M (elt m A) (fun q => elt m tau q 0) (Z.to_nat k) i j) /\
      (forall a, ~ cell A a -> ~ ws b ne a -> ~ inbuf cb (e_p E) a -> m' a = m a)).
    assert (HPQ : forall m', P m' -> (forall i j, pos A i j -> elt m' A i j = qmat K M (elt m A) (fun q => elt m tau q 0) (Z.to_nat k) i j) /\
      (forall a, ~ cell A a -> ~ in_bytes (armas_wptr w) n (e_p E) a -> ~ inbuf cb (e_p E) a -> m' a = m a)).
    { intros m' (P1 & P2). split; [exact P1|]. intros a X1 X2 X3. apply P2; auto. intros X. apply X2. apply bytes_elt; auto. }
    assert (HU : wp (unblk_qrbuild K E A tau (armas_make N 1 N b) (M - k) (N - k) true) L m (fun r m' => P m')).
    { set (W := armas_make N 1 N b). assert (Ev : wvec (N - 1) W = armas_make (N - 1) 1 (N - 1) b) by reflexivity.
      assert (ww : forall a, cell (wvec (N - 1) W) a -> ws b ne a) by (intros a; rewrite Ev; apply make_ws; lia).
      apply (unblk_build_wp K HF HE E L A tau k); auto.
      - fold N. rewrite Ev. apply (make_mok (N - 1) 1 b ne); try lia. intros a Ha. apply HW'; auto.
      - intros a X1 X2. apply ww, HW' in X1. intuition.
      - intros a X1 X2. apply ww, HW' in X1. intuition.
      - intros m' Q1 Q2. split; [exact Q1|]. intros a X1 X2 X3. apply Q2; auto. }
    unfold armas_qrbuild_w. cbv zeta. replace (w_bytes w =? 0) with false by nia. rewrite EB. fold N M. replace (n <? N * e_p E) with false by lia.
    fold ne b. fold ne in lb. fold lb.
    destruct (qrbuild_lb_ok N ne (e_lb E)) as [Hl|Hl]; auto; fold lb in Hl.
    1: replace ((lb =? 0) || (N <=? lb)) with true by lia.
    2: destruct Hl as [Hl|(Hl & Hl2)]; [replace ((lb =? 0) || (N <=? lb)) with true by lia|replace ((lb =? 0) || (N <=? lb)) with false by lia].
    1, 2: destruct HU as (r & m' & R1 & R2); exists m'; (split; [|apply HPQ; exact R2]); rewrite run_bind, R1, wpos_keep; reflexivity.
    assert (HBl : wp (blk_qrbuild K E A tau (armas_make lb lb lb b) (armas_make (N - lb) lb (N - lb) (b + lb * lb)) k lb) L m (fun r m' => P m')).
    { apply (blk_build_wp K HF HE E L cb A tau lb b ne k); auto.
      - apply Hcl. exact Hl.
      - intros m' Q1 Q2. split; [exact Q1|exact Q2]. }
    destruct HBl as (r & m' & R1 & R2). exists m'; (split; [|apply HPQ; exact R2]); rewrite run_bind.
    change (armas_size (armas_make lb lb lb b)) with (lb * lb). rewrite R1, wpos_keep. reflexivity.
  Qed.
End Q.

(* ---- C83: armas_qrbuild_w, armas_qrbuild ---- *)
Theorem C83_qrbuild_w_partial : forall T (K : num T), is_field K -> eqb_ok K ->
  forall (E : lenv) L cb A tau k w (m : Z -> T),
  let n := w_bytes w - w_offset w in let lb := qrbuild_lb (cols A) (n / e_p E) (e_lb E) in
  cfg_ok E L cb -> 0 <= e_lb E -> rows A < Z.of_nat (e_fuel E) ->
  mok L A -> mok L tau -> cols tau = 1 -> rows tau = cols A -> cols A <= rows A -> 0 < cols A -> 0 <= k <= cols A ->
  0 <= w_offset w <= w_bytes w -> w_bytes w < 2 ^ 64 -> cols A * e_p E <= n -> armas_wptr w mod e_p E = 0 ->
  (forall a, in_bytes (armas_wptr w) n (e_p E) a -> L a = true /\ ~ cell A a /\ ~ cell tau a /\ ~ inbuf cb (e_p E) a) ->
  disjoint A tau -> clear_of cb (e_p E) A -> clear_of cb (e_p E) tau ->
  (cols A = rows A -> elt m tau (cols A - 1) 0 = zero K) ->
  (0 < lb < cols A -> unit_at_zero K (rows A) k (elt m A) (fun q => elt m tau q 0)) ->
  exists m', armas_qrbuild_w K E (Some A) (Some tau) k (Some w) L m = Some ((0, Some w), m') /\
    (forall i j, pos A i j -> elt m' A i j = qmat K (rows A) (elt m A) (fun q => elt m tau q 0) (Z.to_nat k) i j) /\
    (forall a, ~ cell A a -> ~ in_bytes (armas_wptr w) n (e_p E) a -> ~ inbuf cb (e_p E) a -> m' a = m a).
Proof. intros T K HF HE. exact (qrbuild_w_ok K HF HE). Qed.
Print Assumptions C83_qrbuild_w_partial.

(* with its own workspace, for which calloc returns b *)
Theorem C83_qrbuild_partial : forall T (K : num T), is_field K -> eqb_ok K ->
  forall (E : lenv) L cb A tau k b (m : Z -> T),
  let size := cols A * Z.max 1 (e_lb E) * e_p E in
  cfg_ok E L cb -> 0 <= e_lb E -> rows A < Z.of_nat (e_fuel E) ->
  mok L A -> mok L tau -> cols tau = 1 -> rows tau = cols A -> cols A <= rows A -> 0 < cols A -> 0 <= k <= cols A ->
  size < 2 ^ 64 -> b mod e_p E = 0 ->
  (forall a, in_bytes b size (e_p E) a -> L a = true /\ ~ cell A a /\ ~ cell tau a /\ ~ inbuf cb (e_p E) a) ->
  disjoint A tau -> clear_of cb (e_p E) A -> clear_of cb (e_p E) tau ->
  (cols A = rows A -> elt m tau (cols A - 1) 0 = zero K) ->
  (0 < e_lb E < cols A -> unit_at_zero K (rows A) k (elt m A) (fun q => elt m tau q 0)) ->
  exists m', armas_qrbuild K E (Some b) (Some A) (Some tau) k L m = Some (0, m') /\
    (forall i j, pos A i j -> elt m' A i j = qmat K (rows A) (elt m A) (fun q => elt m tau q 0) (Z.to_nat k) i j) /\
    (forall a, ~ cell A a -> ~ in_bytes b size (e_p E) a -> ~ inbuf cb (e_p E) a -> m' a = m a).
Proof.
  intros T K HF HE E L cb A tau k b m size HC Hlb Hf OA OT Ct Rt HMN HN Hk Hsz Hal HW DAt cA ct Hlast Hz.
  assert (Hp : 0 < e_p E) by apply HC.
  set (n := if (e_lb E >? 0) && (cols A >? e_lb E) then cols A * e_lb E else cols A).
  assert (Hn : cols A <= n /\ n * e_p E <= size).
  { unfold n, size. destruct (e_lb E >? 0) eqn:E1; cbn [andb]; [destruct (cols A >? e_lb E); nia|nia]. }
  set (w := armas_walloc b (n * e_p E)).
  assert (Hw : forall a, in_bytes (armas_wptr w) (w_bytes w - w_offset w) (e_p E) a -> in_bytes b size (e_p E) a).
  { intros a. unfold w, armas_walloc, armas_wptr, in_bytes. cbn [w_buf w_bytes w_offset]. lia. }
  assert (Ed : (w_bytes w - w_offset w) / e_p E = n) by (unfold w, armas_walloc; cbn [w_bytes w_offset]; rewrite Z.sub_0_r; apply Z.div_mul; lia).
  assert (Elb : qrbuild_lb (cols A) n (e_lb E) = e_lb E).
  { unfold qrbuild_lb, n. destruct ((e_lb E >? 0) && (cols A >? e_lb E)) eqn:El; [|reflexivity]. cbn [andb]. rewrite Z.ltb_irrefl. reflexivity. }
  destruct (C83_qrbuild_w_partial T K HF HE E L cb A tau k w m) as (m' & R1 & R2 & R3);
    [exact HC|exact Hlb|exact Hf|exact OA|exact OT|exact Ct|exact Rt|exact HMN|exact HN|exact Hk|
     cbn; nia|cbn; lia|unfold w, armas_walloc; cbn [w_bytes w_offset]; nia|unfold w, armas_walloc, armas_wptr; cbn [w_buf w_offset]; rewrite Z.add_0_r; exact Hal|intros a Ha; apply HW; auto|
     exact DAt|exact cA|exact ct|exact Hlast| |].
  { rewrite Ed, Elb. exact Hz. }
  exists m'. split; [|split; [exact R2|]].
  - assert (Q : armas_qrbuild_w K E (Some A) (Some tau) k (Some (mkwbuf 0 0 0)) L m = Some ((0, Some (mkwbuf 0 (n * e_p E) 0)), m)) by reflexivity.
    unfold armas_qrbuild. rewrite run_bind, Q. cbv iota beta. cbn [fst snd w_bytes]. change (0 <? 0) with false. cbv iota zeta. replace (n * e_p E >? 0) with true by nia.
    rewrite run_bind. fold w. rewrite R1. reflexivity.
  - intros a X1 X2 X3. apply R3; auto.
Qed.
Print Assumptions C83_qrbuild_partial.

(* bad arguments are reported and nothing is written *)
Theorem C83_qrbuild_errors : forall T (K : num T) (E : lenv) L A tau k wb (m : Z -> T),
  let bad r := exists w', armas_qrbuild_w K E A tau k wb L m = Some ((- r, w'), m) in
  (A = None -> bad ARMAS_EINVAL) /\
  (match wb with Some w => w_bytes w <> 0 | None => True end ->
     (tau = None -> bad ARMAS_EINVAL) /\
     (forall V, A = Some V -> tau <> None ->
        match wb with Some w => 0 <= w_offset w <= w_bytes w /\ w_bytes w < 2 ^ 64 /\ w_bytes w - w_offset w < cols V * e_p E | None => True end -> bad ARMAS_EWORK)).
Proof.
  intros T K E L A tau k wb m bad. split; [intros ->; exists wb; reflexivity|]. intros Hw.
  assert (Eq : match wb with Some w => w_bytes w =? 0 | None => false end = false) by (destruct wb; lia). split.
  - intros ->. exists wb. unfold armas_qrbuild_w. destruct A as [A|]; [|reflexivity]. rewrite Eq. reflexivity.
  - intros V -> Ht H. exists wb. unfold armas_qrbuild_w. rewrite Eq. destruct tau as [tau|]; [|contradiction]. destruct wb as [w|]; [|reflexivity].
    replace (armas_wbytes w <? cols V * e_p E) with true; [reflexivity|]. symmetry. apply Z.ltb_lt. unfold armas_wbytes, u64. rewrite Z.mod_small by lia. lia.
Qed.
Print Assumptions C83_qrbuild_errors.

(* armas_qrfactor of A, then armas_qrbuild with all reflectors: the columns are orthonormal and, times the R of the factorization, give A back *)
Theorem C83_factor_build : forall T (K : num T), is_field K -> is_ordered K -> eqb_ok K -> sqrt_ok K ->
  forall (E : lenv) safmin steps L cb A tau b1 b2 (m : Z -> T),
  let size := cols A * Z.max 1 (e_lb E) * e_p E in let M := rows A in let N := cols A in
  ltb K (zero K) safmin = true -> steps_ok K safmin steps ->
  cfg_ok E L cb -> 0 <= e_lb E -> M < Z.of_nat (e_fuel E) ->
  mok L A -> mok L tau -> cols tau = 1 -> rows tau = N -> N <= M -> 0 < N ->
  size < 2 ^ 64 -> b1 mod e_p E = 0 -> b2 mod e_p E = 0 ->
  (forall a, in_bytes b1 size (e_p E) a \/ in_bytes b2 size (e_p E) a -> L a = true /\ ~ cell A a /\ ~ cell tau a /\ ~ inbuf cb (e_p E) a) ->
  disjoint A tau -> clear_of cb (e_p E) A -> clear_of cb (e_p E) tau ->
  exists m1 m2, armas_qrfactor K E safmin steps (Some b1) (Some A) tau L m = Some (0, m1) /\
    armas_qrbuild K E (Some b2) (Some A) (Some tau) N L m1 = Some (0, m2) /\
    (forall i j, 0 <= i < N -> 0 <= j < N -> vsum K M (fun r => mul K (elt m2 A r i) (elt m2 A r j)) = if i =? j then one K else zero K) /\
    (forall i j, pos A i j -> elt m A i j = vsum K N (fun p => mul K (elt m2 A i p) (if j <? p then zero K else elt m1 A p j))).
Proof.
  intros T K HF HO HE HS E safmin steps L cb A tau b1 b2 m size M N Hsp Hst HC Hlb Hf OA OT Ct Rt HMN HN Hsz Ha1 Ha2 HW DAt cA ct.
  assert (HR : is_ring K) by exact (Field_theory.F_R HF).
  destruct (C79_qrfactor_partial T K HF HO HE HS E safmin steps L cb A tau b1 m) as (m1 & R1 & R2 & _ & _ & R5);
    [exact Hsp|exact Hst|exact HC|exact Hlb|exact Hf|exact OA|exact OT|exact Ct|fold N; lia|exact HMN|exact HN|exact Hsz|exact Ha1|
     intros a Ha; apply HW; auto|exact DAt|exact cA|exact ct|].
  exists m1.
  destruct (C83_qrbuild_partial T K HF HE E L cb A tau N b2 m1) as (m2 & S1 & S2 & _);
    [exact HC|exact Hlb|exact Hf|exact OA|exact OT|exact Ct|exact Rt|exact HMN|exact HN|unfold N in *; lia|exact Hsz|exact Ha2|
     intros a Ha; apply HW; auto|exact DAt|exact cA|exact ct| | |].
  { intros X. destruct R2 as (_ & _ & _ & P4 & _). apply P4; [symmetry; exact X|exact HN]. }
  { intros _. destruct R2 as (_ & _ & _ & _ & P5). exact P5. }
  exists m2. split; [exact R1|]. split; [exact S1|]. fold M N in S2, R2. split.
  - intros i j Hi Hj. rewrite <- (q_orth K HF M N _ _ _ R2 ltac:(lia) i j) by lia. apply (vsum_ext K). intros r Hr. rewrite !S2 by (split; fold M; fold N; lia). reflexivity.
  - intros i j (Hi & Hj). fold M in Hi. fold N in Hj. destruct R2 as (P1 & _). rewrite P1 by auto. rewrite (q_entry K HF) by auto.
    replace M with (N + (M - N)) at 1 by lia. rewrite (vsum_split K HR) by lia.
    assert (Z0 : forall r, add K r (zero K) = r) by (intros r; rewrite (Radd_comm HR); apply (Radd_0_l HR)).
    rewrite (vsum_zero K HR (M - N)), Z0.
    + apply (vsum_ext K). intros p Hp. rewrite S2 by (split; fold M; fold N; lia). replace (N + (M - N)) with M by lia. reflexivity.
    + intros r Hr. unfold upper. replace (j <? N + r) with true by lia. apply (mz K HR).
Qed.
Print Assumptions C83_factor_build.

(* a matrix of no columns is rejected for lack of workspace *)
Theorem C83_empty_refuted : forall T (K : num T) (E : lenv) L A tau k ptr (m : Z -> T), cols A = 0 ->
  armas_qrbuild K E ptr (Some A) (Some tau) k L m = Some (- ARMAS_EWORK, m).
Proof.
  intros T K E L A tau k ptr m H0.
  assert (Q : armas_qrbuild_w K E (Some A) (Some tau) k (Some (mkwbuf 0 0 0)) L m = Some ((0, Some (mkwbuf 0 0 0)), m)).
  { unfold armas_qrbuild_w. cbn [w_bytes w_buf w_offset]. change (0 =? 0) with true. cbv iota zeta. rewrite H0.
    replace ((e_lb E >? 0) && (0 >? e_lb E)) with false by lia. reflexivity. }
  destruct (C83_qrbuild_errors T K E L (Some A) (Some tau) k None m) as (_ & X). destruct (X I) as (_ & Y).
  destruct (Y A eq_refl) as (w' & Y'); [discriminate|exact I|].
  unfold armas_qrbuild. rewrite run_bind, Q. cbv iota beta. cbn [fst snd w_bytes]. change (0 <? 0) with false. change (0 >? 0) with false. cbv iota zeta.
  rewrite run_bind, Y'. reflexivity.
Qed.
Print Assumptions C83_empty_refuted.

Definition qb_f (lb : Z) (A tau : view) (k : Z) (m : Z -> Qc) :=
  armas_qrbuild_w Qcnum (qr_E 0 lb (Some ge_cb)) (Some A) (Some tau) k (Some (mkwbuf 5000 320 0)) cp_L m.

(* T is not cleared.  The reflectors have the vectors (1,0,1), (0,1,1) and the coefficients 0, 1, the workspace is zero: Q is I - (0,1,1)*(0,1,1)^T with
   the second column (0,0,-1).  The coefficient 1 of the second block is used for the first one too, the column becomes (1,0,0) *)
Theorem C83_stale_refuted : let A := lu_A 3 2 in
  let m a := if (a =? 202) || (a =? 209) || (a =? 301) then qc 1 else qc 0 in
  exists w m', qb_f 1 A (qr_t 2) 2 m = Some ((0, w), m') /\
    (Qc_eq_bool (qmat Qcnum 3 (elt m A) (fun q => elt m (qr_t 2) q 0) 2 0 1) (qc 0) = true /\
     Qc_eq_bool (qmat Qcnum 3 (elt m A) (fun q => elt m (qr_t 2) q 0) 2 2 1) (qc (-1)) = true /\
     Qc_eq_bool (elt m' A 0 1) (qc 1) = true /\ Qc_eq_bool (elt m' A 2 1) (qc 0) = true).
Proof. intros A m. qrun E. vm_compute. repeat split. Qed.
Print Assumptions C83_stale_refuted.

(* tau of as many elements as there are reflectors: A is 3 by 2, one reflector with the vector (1,1,0) and the coefficient 1.  The reflector
   is left out, the result is the identity *)
Theorem C83_tau_refuted : let A := lu_A 3 2 in let tau := qr_t 1 in
  let m a := if (a =? 201) || (a =? 300) then qc 1 else qc 0 in
  exists w m', qb_f 64 A tau 1 m = Some ((0, w), m') /\
    (Qc_eq_bool (qmat Qcnum 3 (elt m A) (fun q => elt m tau q 0) 1 0 1) (qc (-1)) = true /\ Qc_eq_bool (elt m' A 0 1) (qc 0) = true).
Proof. intros A tau m. qrun E. vm_compute. repeat split. Qed.
Print Assumptions C83_tau_refuted.

(* more reflectors than columns are not refused, and memory after the last column of A (200, 207) is overwritten *)
Theorem C83_count_refuted : let m (a : Z) := qc 2 in
  exists w m', qb_f 64 (lu_A 3 2) (qr_t 2) 3 m = Some ((0, w), m') /\ Qc_eq_bool (m' 214) (qc 2) = false.
Proof. intros m. qrun E. vm_compute. repeat split. Qed.
Print Assumptions C83_count_refuted.

(* 5 by 3 in blocks of 2, one and a half blocks of reflectors *)
Example C83_nonvacuous : let m a := qc (1 + a mod 5) in let A := lu_A 5 3 in
  exists m', armas_qrbuild Qcnum (lu_E 2) (Some 4000) (Some A) (Some (qr_t 3)) 3 cp_L m = Some (0, m') /\
    forall i j, pos A i j -> elt m' A i j = qmat Qcnum 5 (elt m A) (fun q => elt m (qr_t 3) q 0) 3 i j.
Proof.
  intros m A. destruct (qr_cells 5 3 3) as (X1 & X2 & X3 & X4 & X5 & X6); try lia.
  destruct (C83_qrbuild_partial Qc Qcnum Qc_field Qc_eqb (lu_E 2) cp_L ge_cb A (qr_t 3) 3 4000 m)
    as (m' & R1 & R2 & _); [apply qr_cfg|cbn; lia|cbn; lia|exact X1|exact X2|reflexivity|reflexivity|cbn; lia|cbn; lia|cbn; lia|cbn; lia|reflexivity| |exact X3|exact X4|exact X5|cbn; lia| |].
  - intros a (Y1 & Y2). cbn in Y1, Y2. apply X6. split; lia.
  - intros _ q i Hq _. cbn. intros Hz. exfalso. assert (Hc : q = 0 \/ q = 1 \/ q = 2) by lia. destruct Hc as [->|[->| ->]]; vm_compute in Hz; discriminate.
  - exists m'. split; [exact R1|exact R2].
Qed.

Example C83_factor_nonvacuous : let A := lu_A 5 3 in let m a := IZR a in
  exists m1 m2, armas_qrfactor Rnum (lu_E 2) (/ 2)%R Rsteps (Some 4000) (Some A) (qr_t 3) cp_L m = Some (0, m1) /\
    armas_qrbuild Rnum (lu_E 2) (Some 4000) (Some A) (Some (qr_t 3)) 3 cp_L m1 = Some (0, m2) /\
    (forall i j, pos A i j -> elt m A i j = vsum Rnum 3 (fun p => mul Rnum (elt m2 A i p) (if j <? p then zero Rnum else elt m1 A p j))).
Proof.
  intros A m. destruct (qr_cells 5 3 3) as (X1 & X2 & X3 & X4 & X5 & X6); try lia.
  destruct (C83_factor_build R Rnum R_field R_ordered R_eqb R_sqrt_ok (lu_E 2) (/ 2)%R Rsteps cp_L ge_cb A (qr_t 3) 4000 4000 m)
    as (m1 & m2 & R1 & R2 & _ & R3); [apply Rhalf|apply Rsteps_ok|apply qr_cfg|cbn; lia|cbn; lia|exact X1|exact X2|reflexivity|reflexivity|cbn; lia|cbn; lia|
     cbn; lia|reflexivity|reflexivity| |exact X3|exact X4|exact X5|].
  - intros a Y. apply X6. destruct Y as [(Y1 & Y2)|(Y1 & Y2)]; cbn in Y1, Y2; split; lia.
  - exists m1, m2. split; [exact R1|]. split; [exact R2|exact R3].
Qed.
