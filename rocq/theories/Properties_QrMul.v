(* Properties_QrMul.v: C81 multiplication by the orthogonal matrix of a QR factorization. *)
From Coq Require Import ZArith Lia Bool ZifyBool Ring Field Reals Lra QArith.Qcanon.
From Flocq Require Import Core.
From Verif Require Import SpecFloat PFloat PEft32 Mem MView SpecView PView PSub Hoare MFlags MBase MCopy PUpd PCopy
  MNum SpecNum MBlas1 PSum PBlas1 MElem PElem MBlas2 PMvec PBlas2 PFrame SpecTrm MTrm PTrm MGemm PGemm PMatcpy PMult
  MTrsm PTrsm MTrmm PTrmm PNorm MLap PUpdTrm PLap MHouse SpecHouse SpecQr PHouse MQr PQrA PQrB PQr PQrT PUpdQr PQrF MQrMul PQrMul Inst
  Properties_Copy Properties_Gemm Properties_Lu Properties_House Properties_Qr.
Local Open Scope Z_scope.
Local Open Scope prog_scope.

Ltac lia := nobool; zlia.

(* element (i,j) of op(Q)*C (left) or C*op(Q), Q being n by n *)
Definition op_q {T} (K : num T) (lft trans : bool) (n : Z) (q c : Z -> Z -> T) (i j : Z) : T :=
  if lft then vsum K n (fun r => mul K (if trans then q r i else q i r) (c r j))
  else vsum K n (fun r => mul K (c i r) (if trans then q j r else q r j)).

Section Q.
  Context {T : Type} (K : num T).
  Hypotheses (HF : is_field K) (HE : eqb_ok K).
  Let HR : is_ring K := Field_theory.F_R HF.
  Let HR' : ring_theory (zero K) (one K) (add K) (mul K) (sub K) (opp K) eq := HR.
  Add Ring KringPM : HR'.

  Lemma wpos_keep : forall w, armas_wsetpos w (armas_wpos w) = w.
  Proof. intros [wb wy wo]. unfold armas_wsetpos, armas_wpos. cbn [w_bytes w_offset w_buf]. destruct (wo <? wy); reflexivity. Qed.

  Lemma tauh_eq : forall tau n, rows tau = n -> cols tau = 1 -> 0 < n -> armas_submatrix tau 0 0 n 1 = tau.
  Proof.
    intros [e s r c] n H1 H2 H3. cbn [rows cols] in *. subst r c. unfold armas_submatrix, armas_submatrix_ext. cbn [rows cols step elems].
    unfold armas_size. cbn [rows cols]. replace (n * 1 =? 0) with false by lia. change (0 <? 0) with false. change (1 <? 0) with false.
    replace (n <? 0) with false by lia. unfold armas_make. destruct (s <? 0); f_equal; Lia.lia.
  Qed.

  Lemma qrmult_lb_ok : forall isqrt k wsz lb, 0 < k -> 0 <= lb ->
    (let n := k * k + 4 * wsz in 0 <= isqrt n /\ isqrt n * isqrt n <= n) -> k <= wsz -> let l := qrmult_lb isqrt k wsz lb in l = 0 \/ k <= l \/ 0 < l < k /\ (k + l) * l <= wsz.
  Proof.
    intros isqrt k wsz lb Hk Hlb Hs Hw l. unfold l, qrmult_lb. destruct ((lb >? 0) && (k >? lb) && (wsz <? (k + lb) * lb)) eqn:El; [|lia].
    set (s := isqrt (k * k + 4 * wsz)). destruct Hs as (S1 & S2). fold s in S1, S2.
    set (h := Z.quot (s - k) 2). destruct (and_not3 h <? 32) eqn:E3; [left; reflexivity|right; right]. unfold and_not3 in *.
    assert (Hh : 0 <= h /\ 2 * h + k <= s).
    { unfold h. destruct (Z_lt_ge_dec (s - k) 0) as [Hneg|Hpos].
      - exfalso. assert (X : h <= 0) by (unfold h; replace (s - k) with (- (k - s)) by lia; rewrite Z.quot_opp_l by lia; pose proof (Z.quot_pos (k - s) 2 ltac:(lia) ltac:(lia)); lia).
        pose proof (Z.mod_pos_bound h 4 ltac:(lia)). lia.
      - pose proof (Z.quot_pos (s - k) 2 ltac:(lia) ltac:(lia)). pose proof (Z.mul_quot_le (s - k) 2 ltac:(lia) ltac:(lia)). lia. }
    set (l' := h - h mod 4) in *. pose proof (Z.mod_pos_bound h 4 ltac:(lia)). assert (0 < l' <= h) by lia.
    assert (L : (k + l') * l' <= wsz) by nia. split; [|exact L]. assert ((k + l') * l' < (k + lb) * lb) by lia. nia.
  Qed.

  Lemma qrmult_w_ok : forall (E : lenv) isqrt L cb C A tau flags w (m : Z -> T),
    let lft := negb (has flags ARMAS_RIGHT) in let nc := if lft then cols C else rows C in let n := w_bytes w - w_offset w in
    cfg_ok E L cb -> 0 <= e_lb E -> rows A < Z.of_nat (e_fuel E) -> nc < Z.of_nat (e_fuel E) ->
    (let k := nc * nc + 4 * (n / e_p E) in 0 <= isqrt k /\ isqrt k * isqrt k <= k) ->
    mok L C -> mok L A -> mok L tau -> (if lft then rows C else cols C) = rows A -> cols tau = 1 -> rows tau = cols A ->
    cols A <= rows A -> 0 < cols A -> 0 < nc ->
    0 <= w_offset w <= w_bytes w -> w_bytes w < 2 ^ 64 -> nc * e_p E <= n -> armas_wptr w mod e_p E = 0 ->
    (forall a, in_bytes (armas_wptr w) n (e_p E) a -> L a = true /\ ~ cell C a /\ ~ cell A a /\ ~ cell tau a /\ ~ inbuf cb (e_p E) a) ->
    disjoint C A -> disjoint C tau -> clear_of cb (e_p E) C -> clear_of cb (e_p E) A -> clear_of cb (e_p E) tau ->
    (cols A = rows A -> elt m tau (cols A - 1) 0 = zero K) ->
    exists m', armas_qrmult_w K E isqrt (Some C) (Some A) (Some tau) flags (Some w) L m = Some ((0, Some w), m') /\
      (forall i j, pos C i j -> elt m' C i j =
         op_q K lft (has flags ARMAS_TRANS) (rows A) (qmat K (rows A) (elt m A) (fun q => elt m tau q 0) (Z.to_nat (cols A))) (elt m C) i j) /\
      (forall a, ~ cell C a -> ~ in_bytes (armas_wptr w) n (e_p E) a -> ~ inbuf cb (e_p E) a -> m' a = m a).
  Proof.
    intros E isqrt L cb C A tau flags w m lft nc n HC Hlb HfM Hfn Hsq OC OA OT RC Ct Rt HMN HN Hnc Ho Hb Hsz Hal HW DCA DCt cC cA ct Hlast.
    set (M := rows A) in *. set (N := cols A) in *.
    assert (Hp : 0 < e_p E) by apply HC. assert (HB2 : 2 <= e_b2 E) by apply HC. assert (HB1 : 0 <= e_b1 E) by apply HC.
    assert (EB : armas_wbytes w = n) by (unfold armas_wbytes, u64; apply Z.mod_small; lia).
    set (ne := n / e_p E). set (b := armas_wptr w / e_p E).
    assert (HNn : nc <= ne) by (apply Z.div_le_lower_bound; lia).
    assert (HW' : forall a, ws b ne a -> L a = true /\ ~ cell C a /\ ~ cell A a /\ ~ cell tau a /\ ~ inbuf cb (e_p E) a).
    { intros a Ha. apply HW. apply bytes_elt; auto. }
    assert (RC' : if lft then rows C = M /\ cols C = nc else rows C = nc /\ cols C = M) by (unfold nc; destruct lft; auto).
    set (P := fun m' : Z -> T => (forall i j, 0 <= i < M -> 0 <= j < nc -> oel lft m' C i j =
           (if Bool.eqb (has flags ARMAS_TRANS) lft then qtapply else qapply) K M (elt m A) (fun q => elt m tau q 0) (Z.to_nat N) (fun r => oel lft m C r j) i) /\
       (forall a, ~ cell C a -> ~ ws b ne a -> ~ inbuf cb (e_p E) a -> m' a = m a)).
    assert (HPQ : forall m', P m' -> (forall i j, pos C i j -> elt m' C i j =
         op_q K lft (has flags ARMAS_TRANS) M (qmat K M (elt m A) (fun q => elt m tau q 0) (Z.to_nat N)) (elt m C) i j) /\
      (forall a, ~ cell C a -> ~ in_bytes (armas_wptr w) n (e_p E) a -> ~ inbuf cb (e_p E) a -> m' a = m a)).
    { intros m' (P1 & P2). split.
      - intros i j (Hi & Hj). unfold op_q. unfold oel in P1. clearbody lft nc. destruct lft; cbn [negb] in *; destruct RC' as (RC1 & RC2).
        + rewrite P1 by lia. destruct (has flags ARMAS_TRANS); cbn [Bool.eqb]; [apply (qt_entry K HF)|apply (q_entry K HF)]; lia.
        + rewrite P1 by lia. destruct (has flags ARMAS_TRANS); cbn [Bool.eqb]; [rewrite (q_entry K HF) by lia|rewrite (qt_entry K HF) by lia]; apply (vsum_ext K); intros; ring.
      - intros a X1 X2 X3. apply P2; auto. intros X. apply X2. apply bytes_elt; auto. }
    assert (HU : wp (unblk_mul K lft E C A tau (armas_make nc 1 nc b) flags) L m (fun r m' => P m')).
    { set (W := armas_make nc 1 nc b). assert (Ev : wvec nc W = armas_make nc 1 nc b) by reflexivity.
      assert (ww : forall a, cell (wvec nc W) a -> ws b ne a) by (intros a; rewrite Ev; apply make_ws; lia).
      apply (unblk_mul_wp K HF HE lft E L C A tau nc); auto.
      - rewrite Ev. apply (make_mok nc 1 b ne); try lia. intros a Ha. apply HW'; auto.
      - intros a X1 X2. apply ww, HW' in X1. intuition.
      - intros a X1 X2. apply ww, HW' in X1. intuition.
      - intros a X1 X2. apply ww, HW' in X1. intuition.
      - intros m' Q1 Q2. split; [exact Q1|]. intros a X1 X2 X3. apply Q2; auto. }
    assert (HBl : forall lb, 0 < lb < nc -> (nc + lb) * lb <= ne ->
      wp (blk_mul K lft E C A tau (armas_make lb lb lb b) (armas_make nc lb nc (b + lb * lb)) flags lb) L m (fun r m' => P m')).
    { intros lb H1 H2. apply (blk_mul_wp K HF HE lft E L C A tau nc) with (cb := cb) (n := ne); auto; try lia.
      intros m' Q1 Q2. split; [exact Q1|exact Q2]. }
    assert (Ek : (if has flags ARMAS_RIGHT then rows C else cols C) = nc) by (unfold nc, lft; destruct (has flags ARMAS_RIGHT); reflexivity).
    assert (EP : (if has flags ARMAS_RIGHT then cols C else rows C) = M) by (rewrite <- RC; unfold lft; destruct (has flags ARMAS_RIGHT); reflexivity).
    unfold armas_qrmult_w. cbv zeta. rewrite Ek, EP. replace (w_bytes w =? 0) with false by nia. cbv iota. unfold armas_size at 1. rewrite Ct, Rt. fold M N.
    replace (M =? M) with true by lia. replace (N * 1 =? N) with true by lia. cbn [negb orb]. rewrite EB. replace (n <? nc * e_p E) with false by lia.
    fold ne b. rewrite (tauh_eq tau N) by auto. set (lb := qrmult_lb isqrt nc ne (e_lb E)).
    destruct (qrmult_lb_ok isqrt nc ne (e_lb E)) as [Hl|Hl]; auto; fold lb in Hl.
    1: replace ((lb =? 0) || (nc <=? lb)) with true by lia.
    2: destruct Hl as [Hl|Hl]; [replace ((lb =? 0) || (nc <=? lb)) with true by lia|replace ((lb =? 0) || (nc <=? lb)) with false by lia].
    1, 2: destruct HU as (r & m' & R1 & R2); exists m'; (split; [|apply HPQ; exact R2]); rewrite run_bind;
      unfold unblk_mul, lft in R1; destruct (has flags ARMAS_RIGHT); cbn [negb] in R1; rewrite R1, wpos_keep; reflexivity.
    destruct (HBl lb) as (r & m' & R1 & R2); try lia. exists m'; (split; [|apply HPQ; exact R2]); rewrite run_bind.
    change (armas_size (armas_make lb lb lb b)) with (lb * lb).
    unfold blk_mul, lft in R1; destruct (has flags ARMAS_RIGHT); cbn [negb] in R1; rewrite R1, wpos_keep; reflexivity.
  Qed.
End Q.

(* ---- C81: armas_qrmult_w, armas_qrmult ---- *)
Theorem C81_qrmult_w_partial : forall T (K : num T), is_field K -> eqb_ok K ->
  forall (E : lenv) isqrt L cb C A tau flags w (m : Z -> T),
  let lft := negb (has flags ARMAS_RIGHT) in let nc := if lft then cols C else rows C in let n := w_bytes w - w_offset w in
  cfg_ok E L cb -> 0 <= e_lb E -> rows A < Z.of_nat (e_fuel E) -> nc < Z.of_nat (e_fuel E) ->
  (let k := nc * nc + 4 * (n / e_p E) in 0 <= isqrt k /\ isqrt k * isqrt k <= k) ->
  mok L C -> mok L A -> mok L tau -> (if lft then rows C else cols C) = rows A -> cols tau = 1 -> rows tau = cols A ->
  cols A <= rows A -> 0 < cols A -> 0 < nc ->
  0 <= w_offset w <= w_bytes w -> w_bytes w < 2 ^ 64 -> nc * e_p E <= n -> armas_wptr w mod e_p E = 0 ->
  (forall a, in_bytes (armas_wptr w) n (e_p E) a -> L a = true /\ ~ cell C a /\ ~ cell A a /\ ~ cell tau a /\ ~ inbuf cb (e_p E) a) ->
  disjoint C A -> disjoint C tau -> clear_of cb (e_p E) C -> clear_of cb (e_p E) A -> clear_of cb (e_p E) tau ->
  (cols A = rows A -> elt m tau (cols A - 1) 0 = zero K) ->
  exists m', armas_qrmult_w K E isqrt (Some C) (Some A) (Some tau) flags (Some w) L m = Some ((0, Some w), m') /\
    (forall i j, pos C i j -> elt m' C i j =
       op_q K lft (has flags ARMAS_TRANS) (rows A) (qmat K (rows A) (elt m A) (fun q => elt m tau q 0) (Z.to_nat (cols A))) (elt m C) i j) /\
    (forall a, ~ cell C a -> ~ in_bytes (armas_wptr w) n (e_p E) a -> ~ inbuf cb (e_p E) a -> m' a = m a).
Proof. intros T K HF HE. exact (qrmult_w_ok K HF HE). Qed.
Print Assumptions C81_qrmult_w_partial.

(* with its own workspace, for which calloc returns b *)
Theorem C81_qrmult_partial : forall T (K : num T), is_field K -> eqb_ok K ->
  forall (E : lenv) isqrt L cb C A tau flags b (m : Z -> T),
  let lft := negb (has flags ARMAS_RIGHT) in let nc := if lft then cols C else rows C in let size := (nc + e_lb E) * Z.max 1 (e_lb E) * e_p E in
  cfg_ok E L cb -> 0 <= e_lb E -> rows A < Z.of_nat (e_fuel E) -> nc < Z.of_nat (e_fuel E) ->
  mok L C -> mok L A -> mok L tau -> (if lft then rows C else cols C) = rows A -> cols tau = 1 -> rows tau = cols A ->
  cols A <= rows A -> 0 < cols A -> 0 < nc ->
  size < 2 ^ 64 -> b mod e_p E = 0 ->
  (forall a, in_bytes b size (e_p E) a -> L a = true /\ ~ cell C a /\ ~ cell A a /\ ~ cell tau a /\ ~ inbuf cb (e_p E) a) ->
  disjoint C A -> disjoint C tau -> clear_of cb (e_p E) C -> clear_of cb (e_p E) A -> clear_of cb (e_p E) tau ->
  (cols A = rows A -> elt m tau (cols A - 1) 0 = zero K) ->
  exists m', armas_qrmult K E isqrt (Some b) (Some C) (Some A) (Some tau) flags L m = Some (0, m') /\
    (forall i j, pos C i j -> elt m' C i j =
       op_q K lft (has flags ARMAS_TRANS) (rows A) (qmat K (rows A) (elt m A) (fun q => elt m tau q 0) (Z.to_nat (cols A))) (elt m C) i j) /\
    (forall a, ~ cell C a -> ~ in_bytes b size (e_p E) a -> ~ inbuf cb (e_p E) a -> m' a = m a).
Proof.
  intros T K HF HE E isqrt L cb C A tau flags b m lft nc size HC Hlb Hf Hfn OC OA OT RC Ct Rt HMN HN Hnc Hsz Hal HW DCA DCt cC cA ct Hlast.
  assert (Hp : 0 < e_p E) by apply HC.
  set (n := if (e_lb E >? 0) && (nc >? e_lb E) then (nc + e_lb E) * e_lb E else nc).
  assert (Hn : nc <= n /\ n * e_p E <= size).
  { unfold n, size. destruct (e_lb E >? 0) eqn:E1; cbn [andb]; [destruct (nc >? e_lb E); nia|nia]. }
  set (w := armas_walloc b (n * e_p E)).
  assert (Hw : forall a, in_bytes (armas_wptr w) (w_bytes w - w_offset w) (e_p E) a -> in_bytes b size (e_p E) a).
  { intros a. unfold w, armas_walloc, armas_wptr, in_bytes. cbn [w_buf w_bytes w_offset]. lia. }
  assert (Ek : (if has flags ARMAS_RIGHT then rows C else cols C) = nc) by (unfold nc, lft; destruct (has flags ARMAS_RIGHT); reflexivity).
  assert (Ed : (n * e_p E - 0) / e_p E = n) by (rewrite Z.sub_0_r; apply Z.div_mul; lia).
  set (sq := Z.sqrt).
  (* the block size is not adjusted, so the square root does not matter *)
  assert (Esq : armas_qrmult_w K E isqrt (Some C) (Some A) (Some tau) flags (Some w) = armas_qrmult_w K E sq (Some C) (Some A) (Some tau) flags (Some w)).
  { unfold armas_qrmult_w. cbv zeta. rewrite Ek.
    assert (X : qrmult_lb isqrt nc (armas_wbytes w / e_p E) (e_lb E) = qrmult_lb sq nc (armas_wbytes w / e_p E) (e_lb E)).
    { unfold qrmult_lb. destruct ((e_lb E >? 0) && (nc >? e_lb E)) eqn:El; [|reflexivity]. cbn [andb].
      assert (Y : armas_wbytes w / e_p E = n) by (unfold armas_wbytes, u64, w, armas_walloc; cbn [w_bytes w_offset]; rewrite Z.mod_small by nia; exact Ed).
      rewrite Y. unfold n. try rewrite El. replace ((nc + e_lb E) * e_lb E <? (nc + e_lb E) * e_lb E) with false by lia. reflexivity. }
    rewrite X. reflexivity. }
  destruct (C81_qrmult_w_partial T K HF HE E sq L cb C A tau flags w m) as (m' & R1 & R2 & R3);
    [exact HC|exact Hlb|exact Hf|exact Hfn| |exact OC|exact OA|exact OT|exact RC|exact Ct|exact Rt|exact HMN|exact HN|exact Hnc|
     cbn; nia|cbn; lia|fold lft nc; unfold w, armas_walloc; cbn [w_bytes w_offset]; nia|unfold w, armas_walloc, armas_wptr; cbn [w_buf w_offset]; rewrite Z.add_0_r; exact Hal|intros a Ha; apply HW; auto|
     exact DCA|exact DCt|exact cC|exact cA|exact ct|exact Hlast|].
  { cbv zeta. fold lft nc. unfold w, armas_walloc. cbn [w_bytes w_offset]. rewrite Ed. split; [apply Z.sqrt_nonneg|apply Z.sqrt_spec; nia]. }
  exists m'. split; [|split; [exact R2|]].
  - assert (Q : armas_qrmult_w K E isqrt (Some C) (Some A) (Some tau) flags (Some (mkwbuf 0 0 0)) L m = Some ((0, Some (mkwbuf 0 (n * e_p E) 0)), m)).
    { unfold armas_qrmult_w. cbv zeta. rewrite Ek. reflexivity. }
    unfold armas_qrmult. rewrite run_bind, Q. cbv iota beta. cbn [fst snd w_bytes]. change (0 <? 0) with false. cbv iota zeta. replace (n * e_p E >? 0) with true by nia.
    rewrite run_bind. fold w. rewrite Esq, R1. reflexivity.
  - intros a X1 X2 X3. apply R3; auto.
Qed.
Print Assumptions C81_qrmult_partial.

(* bad arguments are reported and nothing is written *)
Theorem C81_qrmult_errors : forall T (K : num T) (E : lenv) isqrt L C A tau flags wb (m : Z -> T),
  let bad r := exists w', armas_qrmult_w K E isqrt C A tau flags wb L m = Some ((- r, w'), m) in
  (C = None -> bad ARMAS_EINVAL) /\
  (C <> None -> match wb with Some w => w_bytes w <> 0 | None => True end ->
     (A = None \/ tau = None -> bad ARMAS_EINVAL) /\
     (forall U V t, C = Some U -> A = Some V -> tau = Some t ->
        let len := if has flags ARMAS_RIGHT then cols U else rows U in let k := if has flags ARMAS_RIGHT then rows U else cols U in
        (len <> rows V \/ rows t * cols t <> cols V -> bad ARMAS_ESIZE) /\
        (len = rows V -> rows t * cols t = cols V ->
           match wb with Some w => 0 <= w_offset w <= w_bytes w /\ w_bytes w < 2 ^ 64 /\ w_bytes w - w_offset w < k * e_p E | None => True end -> bad ARMAS_EWORK))).
Proof.
  intros T K E isqrt L C A tau flags wb m bad. split; [intros ->; exists wb; reflexivity|].
  intros HC Hw. destruct C as [C|]; [|contradiction]. unfold bad, armas_qrmult_w. clear bad. cbv zeta.
  assert (Eq : match wb with Some w => w_bytes w =? 0 | None => false end = false) by (destruct wb; lia).
  rewrite Eq. split.
  - intros [->| ->]; exists wb; [reflexivity|]. destruct A; reflexivity.
  - intros U V t [= ->] -> ->. split.
    + intros H. exists wb. unfold armas_size at 1. set (len := if has flags ARMAS_RIGHT then cols U else rows U) in *.
      replace (negb (len =? rows V) || negb (rows t * cols t =? cols V)) with true by lia. reflexivity.
    + intros H1 H2 H3. exists wb. unfold armas_size at 1. set (len := if has flags ARMAS_RIGHT then cols U else rows U) in *.
      replace (negb (len =? rows V) || negb (rows t * cols t =? cols V)) with false by lia. destruct wb as [w|]; [|reflexivity].
      replace (armas_wbytes w <? (if has flags ARMAS_RIGHT then rows U else cols U) * e_p E) with true; [reflexivity|].
      symmetry. apply Z.ltb_lt. unfold armas_wbytes, u64. rewrite Z.mod_small by lia. lia.
Qed.
Print Assumptions C81_qrmult_errors.

Section O.
  Context {T : Type} (K : num T).
  Hypotheses (HF : is_field K).
  Let HR : is_ring K := Field_theory.F_R HF.
  Let HR' : ring_theory (zero K) (one K) (add K) (mul K) (sub K) (opp K) eq := HR.
  Add Ring KringPMO : HR'.

  Lemma qt_q_inv : forall n a t k z i, (forall q, 0 <= q < Z.of_nat k -> forall z i, 0 <= i < n -> hmap K n a t q (hmap K n a t q z) i = z i) -> 0 <= i < n ->
    qtapply K n a t k (qapply K n a t k z) i = z i.
  Proof.
    intros n a t k. induction k as [|k IH]; intros z i H Hi; cbn [qapply qtapply]; auto.
    transitivity (hmap K n a t (Z.of_nat k) (hmap K n a t (Z.of_nat k) z) i); [|apply H; lia].
    apply (hmap_ext K); auto. intros j Hj. apply IH; auto. intros. apply H; lia.
  Qed.

  Lemma q_orth : forall M N a0 a t, qr_result K M N a0 a t -> 0 <= N -> forall i j, 0 <= i < M -> 0 <= j < M ->
    vsum K M (fun r => mul K (qmat K M a t (Z.to_nat N) r i) (qmat K M a t (Z.to_nat N) r j)) = if i =? j then one K else zero K.
  Proof.
    intros M N a0 a t (_ & P2 & _) HN i j Hi Hj. unfold qmat.
    transitivity (inner K M (fun r => if r =? i then one K else zero K) (fun r => if r =? j then one K else zero K)).
    - apply (qapply_iso K). intros q Hq. apply P2. lia.
    - rewrite (inner_unit K HF) by auto. reflexivity.
  Qed.
End O.

(* the Q that armas_qrfactor leaves is orthogonal *)
Theorem C81_orthogonal : forall T (K : num T), is_field K -> forall M N a0 a t, qr_result K M N a0 a t -> 0 <= N ->
  let q := qmat K M a t (Z.to_nat N) in
  forall i j, 0 <= i < M -> 0 <= j < M -> vsum K M (fun r => mul K (q r i) (q r j)) = if i =? j then one K else zero K.
Proof. intros T K HF M N a0 a t H HN q. exact (q_orth K HF M N a0 a t H HN). Qed.
Print Assumptions C81_orthogonal.

(* armas_qrfactor of A, then armas_qrmult from the left with the transpose of Q on a copy of A: R is left *)
Theorem C81_factor_mult : forall T (K : num T), is_field K -> is_ordered K -> eqb_ok K -> sqrt_ok K ->
  forall (E : lenv) isqrt safmin steps L cb C A tau b1 b2 (m : Z -> T) flags,
  let size1 := cols A * Z.max 1 (e_lb E) * e_p E in let size2 := (cols A + e_lb E) * Z.max 1 (e_lb E) * e_p E in
  has flags ARMAS_RIGHT = false -> has flags ARMAS_TRANS = true ->
  ltb K (zero K) safmin = true -> steps_ok K safmin steps ->
  cfg_ok E L cb -> 0 <= e_lb E -> rows A < Z.of_nat (e_fuel E) ->
  mok L C -> mok L A -> mok L tau -> rows C = rows A -> cols C = cols A -> cols tau = 1 -> rows tau = cols A -> cols A <= rows A -> 0 < cols A ->
  size1 < 2 ^ 64 -> size2 < 2 ^ 64 -> b1 mod e_p E = 0 -> b2 mod e_p E = 0 ->
  (forall a, in_bytes b1 size1 (e_p E) a \/ in_bytes b2 size2 (e_p E) a -> L a = true /\ ~ cell C a /\ ~ cell A a /\ ~ cell tau a /\ ~ inbuf cb (e_p E) a) ->
  disjoint A tau -> disjoint C A -> disjoint C tau -> clear_of cb (e_p E) C -> clear_of cb (e_p E) A -> clear_of cb (e_p E) tau ->
  (forall i j, pos A i j -> elt m C i j = elt m A i j) ->
  exists m1 m2, armas_qrfactor K E safmin steps (Some b1) (Some A) tau L m = Some (0, m1) /\
    armas_qrmult K E isqrt (Some b2) (Some C) (Some A) (Some tau) flags L m1 = Some (0, m2) /\
    (forall i j, pos A i j -> elt m2 C i j = upper K (elt m1 A) i j /\ elt m2 A i j = elt m1 A i j).
Proof.
  intros T K HF HO HE HS E isqrt safmin steps L cb C A tau b1 b2 m flags size1 size2 Fr Ft Hsp Hst HC Hlb Hf OC OA OT RC CC Ct Rt HMN HN
    Hs1 Hs2 Ha1 Ha2 HW DAt DCA DCt cC cA ct HCA.
  destruct (C79_qrfactor_partial T K HF HO HE HS E safmin steps L cb A tau b1 m) as (m1 & R1 & R2 & _ & _ & R5);
    [exact Hsp|exact Hst|exact HC|exact Hlb|exact Hf|exact OA|exact OT|exact Ct|lia|exact HMN|exact HN|exact Hs1|exact Ha1|
     intros a Ha; destruct (HW a (or_introl Ha)) as (Y1 & _ & Y3); split; [exact Y1|exact Y3]|exact DAt|exact cA|exact ct|].
  exists m1.
  assert (Fl : negb (has flags ARMAS_RIGHT) = true) by (rewrite Fr; reflexivity).
  destruct (C81_qrmult_partial T K HF HE E isqrt L cb C A tau flags b2 m1) as (m2 & S1 & S2 & S3); rewrite ?Fl, ?CC;
    [exact HC|exact Hlb|exact Hf|lia|exact OC|exact OA|exact OT|exact RC|exact Ct|exact Rt|exact HMN|exact HN|exact HN|exact Hs2|exact Ha2|
     intros a Ha; apply HW; auto|exact DCA|exact DCt|exact cC|exact cA|exact ct|intros X; apply R2; lia|].
  exists m2. split; [exact R1|]. split; [exact S1|].
  intros i j Hp. destruct Hp as (Hi & Hj). split.
  - rewrite S2 by (split; lia). rewrite Fl, Ft. unfold op_q. rewrite <- (qt_entry K HF (rows A) (elt m1 A) (fun q => elt m1 tau q 0) (Z.to_nat (cols A)) (fun r => elt m1 C r j) i) by lia.
    destruct R2 as (P1 & P2 & _).
    transitivity (qtapply K (rows A) (elt m1 A) (fun q => elt m1 tau q 0) (Z.to_nat (cols A))
      (qapply K (rows A) (elt m1 A) (fun q => elt m1 tau q 0) (Z.to_nat (cols A)) (fun r => upper K (elt m1 A) r j)) i).
    + apply (qtapply_ext K); auto. intros r Hr. rewrite <- P1 by lia. rewrite <- HCA by (split; lia).
      assert (Xc : cell C (elems C + j * step C + r)) by (exists r, j; split; [split; lia|reflexivity]). unfold elt. apply R5.
      * intros X. apply (DCA (elems C + j * step C + r)); auto.
      * intros X. apply (DCt (elems C + j * step C + r)); auto.
      * intros X. destruct (HW (elems C + j * step C + r)) as (_ & Y & _); auto.
      * intros X. apply (cC (elems C + j * step C + r)); auto.
    + etransitivity; [apply (qt_q_inv K); auto|reflexivity]. intros q Hq. apply P2. lia.
  - assert (Xc : cell A (elems A + j * step A + i)) by (exists i, j; split; [split; lia|reflexivity]). unfold elt. apply S3.
    * intros X. apply (DCA (elems A + j * step A + i)); auto.
    * intros X. destruct (HW (elems A + j * step A + i)) as (_ & _ & Y & _); auto. right. cbv zeta in X. rewrite ?Fl, ?CC in X. exact X.
    * intros X. apply (cA (elems A + j * step A + i)); auto.
Qed.
Print Assumptions C81_factor_mult.

(* the square root of the code, (int) SQRT((DTYPE) n): rounded, then truncated *)
Definition fsqrt (prec emin n : Z) : Z := Ztrunc (rnd prec emin (R_sqrt.sqrt (rnd prec emin (IZR n)))).

(* it never exceeds the root for n below 2^(2a), 2a+1 not above the number of bits: 2^52 for double, 2^22 for float.
   The condition of C81_qrmult_w_partial on the square root holds for such sizes *)
Theorem C81_sqrt : forall prec emin a n, 3 < prec -> 0 <= a -> 2 * a + 1 <= prec -> emin <= - a - 1 -> 0 <= n < 2 ^ (2 * a) ->
  0 <= fsqrt prec emin n /\ fsqrt prec emin n * fsqrt prec emin n <= n.
Proof.
  intros prec emin a n Hp Ha Hpa He Hn. unfold fsqrt.
  assert (Hpp : Prec_gt_0 prec) by (unfold Prec_gt_0; lia).
  assert (Hn2 : (0 <= IZR n)%R) by (apply (IZR_le 0); lia).
  rewrite (rnd_float prec emin (IZR n)).
  2:{ apply (mult_float prec emin Hp 0); [lia|exists n; cbn [bpow]; ring|]. rewrite Rabs_pos_eq by auto. rewrite Z.add_0_l.
      rewrite <- (IZR_Zpower radix2) by lia. apply IZR_lt. apply Z.lt_le_trans with (2 ^ (2 * a)); [apply Hn|]. cbn [radix_val radix2]. apply Z.pow_le_mono_r; lia. }
  set (s := Z.sqrt n). destruct (Z.sqrt_spec n) as (S1 & S2); [lia|]. fold s in S1, S2. assert (S0 : 0 <= s) by apply Z.sqrt_nonneg.
  assert (Sa : s + 1 <= 2 ^ a).
  { assert (s < 2 ^ a); [|lia]. apply Z.square_lt_simpl_nonneg; [apply Z.pow_nonneg; lia|]. rewrite <- Z.pow_add_r by lia. replace (a + a) with (2 * a) by lia. lia. }
  set (f := (IZR (s + 1) - bpow radix2 (- a - 1))%R).
  assert (Bp : (0 < bpow radix2 (- a - 1))%R) by apply bpow_gt_0.
  assert (Ea : (bpow radix2 (- a - 1) * (2 * IZR (2 ^ a)) = 1)%R).
  { replace (2 * IZR (2 ^ a))%R with (bpow radix2 (a + 1)).
    - rewrite <- bpow_plus. replace (- a - 1 + (a + 1)) with 0 by lia. reflexivity.
    - rewrite bpow_plus. change (bpow radix2 1) with 2%R. rewrite <- (IZR_Zpower radix2) by lia. cbn [radix_val radix2]. ring. }
  assert (Ff : float prec emin f).
  { apply (mult_float prec emin Hp (- a - 1)); [lia| |].
    - exists ((s + 1) * 2 ^ (a + 1) - 1). unfold f. rewrite minus_IZR, mult_IZR. rewrite Z.pow_add_r by lia. rewrite (mult_IZR (2 ^ a)). cbn [Z.pow Z.pow_pos Pos.iter Z.mul Pos.mul].
      transitivity (IZR (s + 1) * (bpow radix2 (- a - 1) * (2 * IZR (2 ^ a))) - bpow radix2 (- a - 1))%R; [rewrite Ea; ring|ring].
    - rewrite Rabs_pos_eq.
      + unfold f. apply Rlt_le_trans with (IZR (s + 1)); [lra|]. apply Rle_trans with (IZR (2 ^ a)); [apply IZR_le; lia|].
        change 2 with (radix_val radix2). rewrite (IZR_Zpower radix2) by lia. apply bpow_le. lia.
      + unfold f. assert (1 <= IZR (s + 1))%R by (apply (IZR_le 1); lia). assert (1 <= IZR (2 ^ a))%R by (apply (IZR_le 1); lia). nra. }
  assert (Sf : (R_sqrt.sqrt (IZR n) <= f)%R).
  { assert (F0 : (0 <= f)%R).
    { unfold f. assert (1 <= IZR (s + 1))%R by (apply (IZR_le 1); lia). assert (1 <= IZR (2 ^ a))%R by (apply (IZR_le 1); lia). nra. }
    rewrite <- (sqrt_square f) by auto. apply sqrt_le_1; [auto|apply Rmult_le_pos; auto|].
    apply Rle_trans with (IZR ((s + 1) * (s + 1) - 1)); [apply IZR_le; lia|]. rewrite minus_IZR, mult_IZR. unfold f.
    assert (IZR (s + 1) <= IZR (2 ^ a))%R by (apply IZR_le; lia). assert (1 <= IZR (s + 1))%R by (apply (IZR_le 1); lia). nra. }
  assert (Rf : (rnd prec emin (R_sqrt.sqrt (IZR n)) <= f)%R) by (apply round_le_generic; [apply FLT_exp_valid; exact Hpp|apply valid_rnd_N|exact Ff|exact Sf]).
  assert (R0 : (0 <= rnd prec emin (R_sqrt.sqrt (IZR n)))%R) by (apply round_ge_generic; [apply FLT_exp_valid; exact Hpp|apply valid_rnd_N|apply generic_format_0|apply sqrt_pos]).
  rewrite Ztrunc_floor by exact R0. set (z := Zfloor (rnd prec emin (R_sqrt.sqrt (IZR n)))).
  assert (Z0 : 0 <= z) by (apply Zfloor_lub; exact R0). assert (Zs : z < s + 1).
  { apply lt_IZR. apply Rle_lt_trans with (1 := Zfloor_lb _). apply Rle_lt_trans with (1 := Rf). unfold f. lra. }
  split; [exact Z0|]. assert (z <= s) by lia. nia.
Qed.
Print Assumptions C81_sqrt.

(* with more elements the float version takes a block size for which the workspace it was given is too small:
   10000 columns, 321023 elements, and blocks of 32 columns need 10032 * 32 = 321024 *)
Theorem C81_sqrt_refuted : let wsz := 321023 in
  qrmult_lb (fsqrt 24 (-149)) 10000 wsz 64 = 32 /\ wsz < (10000 + 32) * 32.
Proof.
  intros wsz. split; [|unfold wsz; lia].
  assert (X : fsqrt 24 (-149) (10000 * 10000 + 4 * wsz) = 10064).
  { unfold fsqrt, wsz. change (10000 * 10000 + 4 * 321023) with 101284092.
    assert (X1 : rnd 24 (-149) (IZR 101284092) = IZR 101284096).
    { unfold rnd, round, scaled_mantissa, cexp.
      rewrite (mag_unique radix2 (IZR 101284092) 27) by (rewrite Rabs_pos_eq by lra; change (27 - 1) with 26; cbn [bpow]; change (Z.pow_pos radix2 26) with 67108864; change (Z.pow_pos radix2 27) with 134217728; split; lra).
      change (FLT_exp (-149) 24 27) with 3. change (- (3)) with (-3). change (bpow radix2 (-3)) with (/ 8)%R. unfold F2R. cbn [Defs.Fnum Fexp]. change (bpow radix2 3) with 8%R.
      replace (IZR 101284092 * / 8)%R with (IZR 12660511 + / 2)%R by lra.
      assert (Xn : ZnearestE (IZR 12660511 + / 2) = 12660512).
      { unfold Znearest. assert (Fl : Zfloor (IZR 12660511 + / 2) = 12660511) by (apply Zfloor_imp; rewrite plus_IZR; lra). rewrite Fl.
        rewrite Rcompare_Eq by lra. cbn [Z.even negb]. rewrite (Zceil_floor_neq); [rewrite Fl; reflexivity|]. rewrite Fl. lra. }
      rewrite Xn. lra. }
    rewrite X1. replace (IZR 101284096) with (IZR 10064 * IZR 10064)%R by lra. rewrite sqrt_square by lra.
    rewrite (rnd_float 24 (-149) (IZR 10064)); [apply Ztrunc_IZR|].
    apply (mult_float 24 (-149) eq_refl 0); [lia|exists 10064; cbn [bpow]; ring|]. rewrite Rabs_pos_eq by lra. cbn. lra. }
  unfold qrmult_lb. rewrite X. reflexivity.
Qed.
Print Assumptions C81_sqrt_refuted.

(* a matrix C of no columns is rejected for lack of workspace *)
Theorem C81_qrmult_empty_refuted : forall T (K : num T) (E : lenv) isqrt L C A tau flags ptr (m : Z -> T),
  has flags ARMAS_RIGHT = false -> cols C = 0 -> rows C = rows A -> rows tau * cols tau = cols A ->
  armas_qrmult K E isqrt ptr (Some C) (Some A) (Some tau) flags L m = Some (- ARMAS_EWORK, m).
Proof.
  intros T K E isqrt L C A tau flags ptr m Hf H0 H1 H2.
  assert (Q : armas_qrmult_w K E isqrt (Some C) (Some A) (Some tau) flags (Some (mkwbuf 0 0 0)) L m = Some ((0, Some (mkwbuf 0 0 0)), m)).
  { unfold armas_qrmult_w. cbn [w_bytes w_buf w_offset]. change (0 =? 0) with true. cbv iota zeta. rewrite Hf, H0.
    replace ((e_lb E >? 0) && (0 >? e_lb E)) with false by lia. reflexivity. }
  destruct (C81_qrmult_errors T K E isqrt L (Some C) (Some A) (Some tau) flags None m) as (_ & X). destruct X as (_ & Y); [discriminate|exact I|].
  destruct (Y C A tau eq_refl eq_refl eq_refl) as (_ & Y'). rewrite Hf in Y'. destruct Y' as (w' & Y'); auto.
  unfold armas_qrmult. rewrite run_bind, Q. cbv iota beta. cbn [fst snd w_bytes]. change (0 <? 0) with false. change (0 >? 0) with false. cbv iota zeta.
  rewrite run_bind, Y'. reflexivity.
Qed.
Print Assumptions C81_qrmult_empty_refuted.

Definition qm_C (r c : Z) : view := mkview 400 7 r c.
Definition qm_f (lb : Z) (cb : option cbuf) (C A tau : view) (flags : Z) (m : Z -> Qc) :=
  armas_qrmult_w Qcnum (qr_E 0 lb cb) Z.sqrt (Some C) (Some A) (Some tau) flags (Some (mkwbuf 4000 320 0)) cp_L m.

(* a row vector is taken for tau; it is then read as a column, and the cell after its first element is used in place
   of its second one: with the vectors (1,0,0), (0,1,0) and tau = (2,2) Q is diag(-1,-1,1), but (1,1,1) comes out as (-1,1,1) *)
Theorem C81_qrmult_rowtau_refuted : let tau := mkview 300 7 1 2 in
  let m a := if (a =? 300) || (a =? 307) then qc 2 else if 400 <=? a then qc 1 else qc 0 in
  exists w m', qm_f 64 (Some ge_cb) (qm_C 3 1) (lu_A 3 2) tau 0 m = Some ((0, w), m') /\
    (Qc_eq_bool (elt m tau 0 1) (qc 2) = true /\
     Qc_eq_bool (op_q Qcnum true false 3 (qmat Qcnum 3 (elt m (lu_A 3 2)) (fun q => elt m tau 0 q) 2) (elt m (qm_C 3 1)) 1 0) (qc (-1)) = true /\
     Qc_eq_bool (elt m' (qm_C 3 1) 1 0) (qc 1) = true).
Proof. intros tau m. qrun E. vm_compute. repeat split. Qed.
Print Assumptions C81_qrmult_rowtau_refuted.

(* without scratch memory for the matrix products the blocked version returns 0 and a wrong result: all tau
   are 0, Q is the identity, and rows of C come out as 0 *)
Theorem C81_qrmult_nomem_refuted : let m a := if 400 <=? a then qc 1 else qc 0 in
  exists w m', qm_f 1 None (qm_C 3 2) (lu_A 3 2) (qr_t 2) 0 m = Some ((0, w), m') /\
    (Qc_eq_bool (elt m (qr_t 2) 0 0) (qc 0) && Qc_eq_bool (elt m (qr_t 2) 1 0) (qc 0) = true /\
     Qc_eq_bool (elt m (qm_C 3 2) 0 0) (qc 1) = true /\ Qc_eq_bool (elt m' (qm_C 3 2) 0 0) (qc 0) = true).
Proof. intros m. qrun E. vm_compute. repeat split. Qed.
Print Assumptions C81_qrmult_nomem_refuted.

(* a blocked product from the right, 3 by 5 times the transpose of Q *)
Example C81_nonvacuous : let m a := qc (a mod 5) in let C := qm_C 3 5 in
  exists m', armas_qrmult Qcnum (lu_E 2) Z.sqrt (Some 4000) (Some C) (Some (lu_A 5 3)) (Some (qr_t 3)) (Z.lor ARMAS_RIGHT ARMAS_TRANS) cp_L m = Some (0, m') /\
    forall i j, pos C i j -> elt m' C i j =
      op_q Qcnum false true 5 (qmat Qcnum 5 (elt m (lu_A 5 3)) (fun q => elt m (qr_t 3) q 0) 3) (elt m C) i j.
Proof.
  intros m C. destruct (qr_cells 5 3 3) as (X1 & X2 & X3 & X4 & X5 & X6); try lia.
  assert (CC : forall a, cell C a -> 400 <= a < 440) by (intros a (i & j & (P1 & P2) & ->); unfold C, qm_C in *; cbn [rows cols elems step] in *; lia).
  assert (CA : forall a, cell (lu_A 5 3) a -> 200 <= a < 250) by (intros a (i & j & (P1 & P2) & ->); unfold lu_A in *; cbn [rows cols elems step] in *; lia).
  assert (CT : forall a, cell (qr_t 3) a -> 300 <= a < 310) by (intros a (i & j & (P1 & P2) & ->); unfold qr_t in *; cbn [rows cols elems step] in *; lia).
  destruct (C81_qrmult_partial Qc Qcnum Qc_field Qc_eqb (lu_E 2) Z.sqrt cp_L ge_cb C (lu_A 5 3) (qr_t 3) (Z.lor ARMAS_RIGHT ARMAS_TRANS) 4000 m)
    as (m' & R1 & R2 & _); [apply qr_cfg|cbn; lia|cbn; lia|cbn; lia| |exact X1|exact X2|reflexivity|reflexivity|reflexivity|cbn; lia|cbn; lia|cbn; lia|
     cbn; lia|reflexivity| | | | |exact X4|exact X5|cbn; lia|].
  - split; [repeat split; cbn; lia|intros a Ha; apply CC in Ha; unfold cp_L; lia].
  - intros a (Y1 & Y2). cbn in Y1, Y2. destruct (X6 a) as (Z1 & Z2 & Z3 & Z4); [split; lia|]. split; [exact Z1|]. split; [|auto].
    intros X. apply CC in X. lia.
  - intros a Y1 Y2. apply CC in Y1. apply CA in Y2. lia.
  - intros a Y1 Y2. apply CC in Y1. apply CT in Y2. lia.
  - intros a (Y1 & Y2) Y3. apply CC in Y3. cbn in Y1. lia.
  - exists m'. split; [exact R1|exact R2].
Qed.

Example C81_factor_mult_nonvacuous : let m a := if 400 <=? a then IZR (a - 200) else IZR a in let C := qm_C 5 3 in
  exists m1 m2, armas_qrfactor Rnum (lu_E 2) (/ 2)%R Rsteps (Some 4000) (Some (lu_A 5 3)) (qr_t 3) cp_L m = Some (0, m1) /\
    armas_qrmult Rnum (lu_E 2) Z.sqrt (Some 4000) (Some C) (Some (lu_A 5 3)) (Some (qr_t 3)) ARMAS_TRANS cp_L m1 = Some (0, m2) /\
    (forall i j, pos (lu_A 5 3) i j -> elt m2 C i j = upper Rnum (elt m1 (lu_A 5 3)) i j).
Proof.
  intros m C. destruct (qr_cells 5 3 3) as (X1 & X2 & X3 & X4 & X5 & X6); try lia.
  assert (CC : forall a, cell C a -> 400 <= a < 440) by (intros a (i & j & (P1 & P2) & ->); unfold C, qm_C in *; cbn [rows cols elems step] in *; lia).
  assert (CA : forall a, cell (lu_A 5 3) a -> 200 <= a < 250) by (intros a (i & j & (P1 & P2) & ->); unfold lu_A in *; cbn [rows cols elems step] in *; lia).
  assert (CT : forall a, cell (qr_t 3) a -> 300 <= a < 310) by (intros a (i & j & (P1 & P2) & ->); unfold qr_t in *; cbn [rows cols elems step] in *; lia).
  destruct (C81_factor_mult R Rnum R_field R_ordered R_eqb R_sqrt_ok (lu_E 2) Z.sqrt (/ 2)%R Rsteps cp_L ge_cb C (lu_A 5 3) (qr_t 3) 4000 4000 m ARMAS_TRANS)
    as (m1 & m2 & R1 & R2 & R3); [reflexivity|reflexivity|apply Rhalf|apply Rsteps_ok|apply qr_cfg|cbn; lia|cbn; lia| |exact X1|exact X2|reflexivity|reflexivity|reflexivity|reflexivity|cbn; lia|cbn; lia|
     cbn; lia|cbn; lia|reflexivity|reflexivity| |exact X3| | | |exact X4|exact X5| |].
  - split; [repeat split; cbn; lia|intros a Ha; apply CC in Ha; unfold cp_L; lia].
  - intros a Y. assert (Y' : in_bytes 4000 320 8 a) by (destruct Y as [(Y1 & Y2)|(Y1 & Y2)]; cbn in Y1, Y2; split; lia).
    destruct (X6 a Y') as (Z1 & Z2 & Z3 & Z4). split; [exact Z1|]. split; [|auto]. intros X. apply CC in X. destruct Y' as (Y1 & Y2). lia.
  - intros a Y1 Y2. apply CC in Y1. apply CA in Y2. lia.
  - intros a Y1 Y2. apply CC in Y1. apply CT in Y2. lia.
  - intros a (Y1 & Y2) Y3. apply CC in Y3. cbn in Y1. lia.
  - intros i j (Hi & Hj). unfold elt, m, C, qm_C, lu_A in *. cbn [elems step rows cols] in *. replace (400 <=? 400 + j * 7 + i) with true by lia.
    replace (400 <=? 200 + j * 7 + i) with false by lia. f_equal. lia.
  - exists m1, m2. split; [exact R1|]. split; [exact R2|]. intros i j Hp. apply R3. exact Hp.
Qed.
