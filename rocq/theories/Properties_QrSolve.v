(* Properties_QrSolve.v: C82 least squares and minimum norm solutions by a QR factorization. *)
From Coq Require Import ZArith Lia Bool ZifyBool Ring Field Reals Lra QArith.Qcanon.
From Verif Require Import Mem MView SpecView PView PSub Hoare MFlags MBase MCopy PUpd PCopy
  MNum SpecNum MBlas1 PSum PBlas1 MElem PElem MBlas2 PMvec PBlas2 PFrame SpecTrm MTrm PTrm MGemm PGemm PMatcpy PMult
  MTrsm PTrsm MTrmm PTrmm PNorm MLap PUpdTrm PLap MHouse SpecHouse SpecQr SpecLs PHouse MQr PQrA PQrB PQr PQrT PUpdQr PQrF MQrMul PQrMul MQrSolve PQrLs Inst
  Properties_Copy Properties_Gemm Properties_Trsm Properties_Lu Properties_House Properties_Qr Properties_QrMul.
Local Open Scope Z_scope.
Local Open Scope prog_scope.

Ltac lia := nobool; zlia.

(* one column b of the right hand sides and the column x it becomes.  R is what a holds on and above the diagonal, Q the product
   of the reflectors below it.  Transposed: x = Q*(u, 0) with R^T*u = b; else x is the solution of R*x = (Q^T*b)[0:N],
   followed by the rest of Q^T*b *)
Definition qr_solved {T} (K : num T) (trans : bool) (M N : Z) (a : Z -> Z -> T) (t : Z -> T) (b x : Z -> T) : Prop :=
  let q := qmat K M a t (Z.to_nat N) in
  if trans then
    exists u, (forall j, 0 <= j < N -> mvt K N (upper K a) u j = b j) /\
      forall i, 0 <= i < M -> x i = mv K M q (fun r => if r <? N then u r else zero K) i
  else
    (forall i, 0 <= i < N -> mv K N (upper K a) x i = mvt K M q b i) /\
    (forall i, N <= i < M -> x i = mvt K M q b i).

Section Q.
  Context {T : Type} (K : num T).
  Hypotheses (HF : is_field K) (HE : eqb_ok K).
  Let HR : is_ring K := Field_theory.F_R HF.
  Let HR' : ring_theory (zero K) (one K) (add K) (mul K) (sub K) (opp K) eq := HR.
  Add Ring KringPS : HR'.

  Lemma sub_eq : forall A r c nr nc, rows A * cols A <> 0 -> 0 <= r -> 0 <= c -> 0 <= nr -> 0 <= nc -> 0 <= step A -> armas_submatrix A r c nr nc = subm A r c nr nc.
  Proof.
    intros A r c nr nc HA Hr Hc Hnr Hnc Hs. unfold armas_submatrix, armas_submatrix_ext, armas_submatrix_unsafe, armas_size.
    replace (rows A * cols A =? 0) with false by lia. replace (r <? 0) with false by lia. replace (c <? 0) with false by lia.
    replace (nr <? 0) with false by lia. replace (nc <? 0) with false by lia. replace (step A <? 0) with false by lia. reflexivity.
  Qed.

  Lemma env_of : forall E L cb V, cfg_ok E L cb -> clear_of cb (e_p E) V -> rows V < Z.of_nat (e_fuel E) -> cols V < Z.of_nat (e_fuel E) -> env_ok E L cb V.
  Proof. intros E L cb V HC HV H1 H2. split; [apply HC|]. split; [apply HC|]. split; [auto|]. split; [auto|]. split; [apply HC|]. apply cfg_buf; auto. Qed.

  Lemma qrsolve_w_ok : forall (E : lenv) isqrt L cb B A tau flags w (m : Z -> T),
    let n := w_bytes w - w_offset w in let M := rows A in let N := cols A in
    cfg_ok E L cb -> 0 <= e_lb E -> M < Z.of_nat (e_fuel E) -> cols B < Z.of_nat (e_fuel E) ->
    (let k := cols B * cols B + 4 * (n / e_p E) in 0 <= isqrt k /\ isqrt k * isqrt k <= k) ->
    mok L B -> mok L A -> mok L tau -> rows B = M -> cols tau = 1 -> rows tau = N -> N <= M -> 0 < N -> 0 < cols B ->
    0 <= w_offset w <= w_bytes w -> w_bytes w < 2 ^ 64 -> cols B * e_p E <= n -> armas_wptr w mod e_p E = 0 ->
    (forall a, in_bytes (armas_wptr w) n (e_p E) a -> L a = true /\ ~ cell B a /\ ~ cell A a /\ ~ cell tau a /\ ~ inbuf cb (e_p E) a) ->
    disjoint B A -> disjoint B tau -> clear_of cb (e_p E) B -> clear_of cb (e_p E) A -> clear_of cb (e_p E) tau ->
    (forall i, 0 <= i < N -> elt m A i i <> zero K) -> (N = M -> elt m tau (N - 1) 0 = zero K) ->
    exists m', armas_qrsolve_w K E isqrt (Some B) (Some A) (Some tau) flags (Some w) L m = Some ((0, Some w), m') /\
      (forall j, 0 <= j < cols B -> qr_solved K (has flags ARMAS_TRANS) M N (elt m A) (fun q => elt m tau q 0) (fun i => elt m B i j) (fun i => elt m' B i j)) /\
      (forall a, ~ cell B a -> ~ in_bytes (armas_wptr w) n (e_p E) a -> ~ inbuf cb (e_p E) a -> m' a = m a).
  Proof.
    intros E isqrt L cb B A tau flags w m n M N HC Hlb HfM Hfn Hsq OB OA OT RB Ct Rt HMN HN Hnc Ho Hb Hsz Hal HW DBA DBt cB cA ct Hd Hlast.
    assert (Hp : 0 < e_p E) by apply HC.
    assert (EB : armas_wbytes w = n) by (unfold armas_wbytes, u64; apply Z.mod_small; lia).
    assert (SA : 0 <= step A) by (destruct OA as ((? & ? & ?) & _); lia). assert (SB : 0 <= step B) by (destruct OB as ((? & ? & ?) & _); lia).
    unfold armas_qrsolve_w. fold M N. replace (w_bytes w =? 0) with false by nia. cbv iota. rewrite RB, Z.eqb_refl. cbn [negb]. rewrite EB.
    replace (n <? cols B * e_p E) with false by lia. cbv zeta. unfold M, N in *. clear M N.
    set (M := rows A) in *. set (N := cols A) in *.
    rewrite !sub_eq by (unfold N; nia). set (R := subm A 0 0 N N). set (BT := subm B 0 0 N (cols B)).
    assert (IR : inA A 0 0 N N) by (repeat split; fold M N; lia). assert (IB : inA B 0 0 N (cols B)) by (repeat split; lia).
    assert (OR : mok L R) by (apply (V_ok L A OA); auto). assert (OBT : mok L BT) by (apply (V_ok L B OB); auto).
    assert (iR : forall a, cell R a -> cell A a) by (intros a; apply (V_in L A OA); auto).
    assert (iB : forall a, cell BT a -> cell B a) by (intros a; apply (V_in L B OB); auto).
    assert (cBT : clear_of cb (e_p E) BT) by (intros a X1 X2; apply (cB a); auto).
    assert (cR : clear_of cb (e_p E) R) by (intros a X1 X2; apply (cA a); auto).
    assert (EBT : env_ok E L cb BT) by (apply env_of; auto; change (rows BT) with N; lia).
    assert (BO : buf_ok L cb (e_mb E) (e_nb E) (e_kb E) (e_p E) BT R R) by (apply cfg_buf; auto).
    assert (DBR : disjoint BT R) by (intros a X1 X2; apply (DBA a); auto).
    assert (tr : forall (m1 : Z -> T) i k, 0 <= i < N -> 0 <= k < N -> (forall i j, pos A i j -> elt m1 A i j = elt m A i j) -> tri K true false m1 R i k = upper K (elt m A) i k).
    { intros m1 i k Hi Hk He. unfold tri, upper, R. rewrite V_elt, He by (split; fold M N; lia). rewrite !Z.add_0_l.
      destruct (i =? k) eqn:X1; [replace (k <? i) with false by lia; reflexivity|]. destruct (i <? k) eqn:X2; [replace (k <? i) with false by lia|replace (k <? i) with true by lia]; reflexivity. }
    assert (kA : forall (m1 m2 : Z -> T), (forall a, ~ cell B a -> ~ in_bytes (armas_wptr w) n (e_p E) a -> ~ inbuf cb (e_p E) a -> m2 a = m1 a) -> forall i j, pos A i j -> elt m2 A i j = elt m1 A i j).
    { intros m1 m2 H i j Hpp. assert (Xc : cell A (elems A + j * step A + i)) by (exists i, j; auto). unfold elt. apply H.
      - intros X. apply (DBA _ X Xc).
      - intros X. apply HW in X. intuition.
      - intros X. apply (cA _ X Xc). }
    assert (kt : forall (m1 m2 : Z -> T), (forall a, ~ cell B a -> ~ in_bytes (armas_wptr w) n (e_p E) a -> ~ inbuf cb (e_p E) a -> m2 a = m1 a) -> forall i j, pos tau i j -> elt m2 tau i j = elt m1 tau i j).
    { intros m1 m2 H i j Hpp. assert (Xc : cell tau (elems tau + j * step tau + i)) by (exists i, j; auto). unfold elt. apply H.
      - intros X. apply (DBt _ X Xc).
      - intros X. apply HW in X. intuition.
      - intros X. apply (ct _ X Xc). }
    assert (QE : forall m1 : Z -> T, (forall i j, pos A i j -> elt m1 A i j = elt m A i j) -> (forall i j, pos tau i j -> elt m1 tau i j = elt m tau i j) ->
      forall i r, 0 <= i < M -> 0 <= r < M -> qmat K M (elt m1 A) (fun q => elt m1 tau q 0) (Z.to_nat N) i r = qmat K M (elt m A) (fun q => elt m tau q 0) (Z.to_nat N) i r).
    { intros m1 H1 H2 i r Hi Hr. unfold qmat. apply (qapply_ext K); auto.
      - intros i' q Hq Hi'. apply H1. split; fold M N; lia.
      - intros q Hq. apply H2. split; lia. }
    unfold qr_solved. destruct (has flags ARMAS_TRANS).
    - (* R^T*u = b, then Q*(u,0) *)
      assert (W1 : wp (l_solve_trm K E BT (one K) R (Z.lor ARMAS_LEFT (Z.lor ARMAS_UPPER ARMAS_TRANSA))) L m (fun _ m1 =>
        solves_trm K false true false true m m1 (one K) R BT /\ outb cb (e_p E) BT m m1)).
      { apply (solve_wp K HF HE E L cb); auto; try reflexivity; [repeat split|]. right. intros i Hi. change (cols R) with N in Hi. unfold R. rewrite V_elt. apply Hd; auto. }
      destruct W1 as (r1 & m1 & R1 & V1 & O1). rewrite run_bind, R1. clear R1.
      assert (EBB : armas_submatrix B N 0 (-1) (-1) = subm B N 0 (M - N) (cols B)).
      { unfold armas_submatrix, armas_submatrix_ext, armas_submatrix_unsafe, armas_size. replace (rows B * cols B =? 0) with false by nia.
        change (0 <? 0) with false. change (-1 <? 0) with true. cbv iota. replace (N <? 0) with false by lia. replace (step B <? 0) with false by lia. rewrite RB, Z.sub_0_r. reflexivity. }
      rewrite EBB. clear EBB. set (BB := subm B N 0 (M - N) (cols B)).
      assert (IBB : inA B N 0 (M - N) (cols B)) by (repeat split; lia).
      assert (OBB : mok L BB) by (apply (V_ok L B OB); auto).
      assert (iBB : forall a, cell BB a -> cell B a) by (intros a; apply (V_in L B OB); auto).
      destruct (mscale_all K L m1 BB (zero K) 0) as (m2 & S1 & S2 & S3); auto; try apply OBB; try discriminate.
      rewrite run_bind, S1. clear S1.
      assert (O2 : forall a, ~ cell B a -> ~ in_bytes (armas_wptr w) n (e_p E) a -> ~ inbuf cb (e_p E) a -> m2 a = m a).
      { intros a X1 X2 X3. rewrite S3 by auto. apply O1; auto. }
      pose proof (kA m m2 O2) as A2. pose proof (kt m m2 O2) as T2.
      destruct (qrmult_w_ok K HF HE E isqrt L cb B A tau ARMAS_LEFT w m2) as (m3 & Q1 & Q2 & Q3);
        [exact HC|exact Hlb|exact HfM|exact Hfn|exact Hsq|exact OB|exact OA|exact OT|exact RB|exact Ct|exact Rt|exact HMN|exact HN|exact Hnc|exact Ho|exact Hb|exact Hsz|exact Hal|exact HW|
         exact DBA|exact DBt|exact cB|exact cA|exact ct| |].
      { intros X. rewrite T2 by (split; fold N; lia). apply Hlast; auto. }
      rewrite run_bind, Q1. cbn [snd]. exists m3. split; [reflexivity|]. split; [|intros a X1 X2 X3; rewrite Q3 by auto; apply O2; auto].
      intros j Hj. exists (fun r => elt m1 B r j). split.
      + intros c Hc. assert (Pc : pos BT c j) by (split; [change (rows BT) with N; lia|change (cols BT) with (cols B); lia]). specialize (V1 c j Pc). cbv iota in V1. change (cols R) with N in V1.
        transitivity (mul K (one K) (elt m BT c j)); [|unfold BT; rewrite V_elt, !Z.add_0_l; ring]. rewrite <- V1. unfold mvt. apply (vsum_ext K). intros k Hk.
        unfold optri. rewrite (tr m) by (auto; lia). unfold BT. rewrite V_elt, !Z.add_0_l. reflexivity.
      + intros i Hi. rewrite Q2 by (split; lia). unfold op_q. change (negb (has ARMAS_LEFT ARMAS_RIGHT)) with true. change (has ARMAS_LEFT ARMAS_TRANS) with false. cbv iota. fold M N. unfold mv. apply (vsum_ext K).
        intros r Hr. rewrite (QE m2 A2 T2) by auto. f_equal. destruct (r <? N) eqn:Er.
        * unfold elt. apply S3. apply subm_notin; [apply OB|exact IBB|split; lia|unfold inb; lia].
        * replace (elt m2 B r j) with (elt m2 BB (r - N) j) by (unfold BB; rewrite V_elt; f_equal; lia). rewrite S2; [ring|]. split; [change (rows BB) with (M - N); lia|change (cols BB) with (cols B); lia].
    - destruct (qrmult_w_ok K HF HE E isqrt L cb B A tau (Z.lor ARMAS_LEFT ARMAS_TRANS) w m) as (m2 & Q1 & Q2 & Q3);
        [exact HC|exact Hlb|exact HfM|exact Hfn|exact Hsq|exact OB|exact OA|exact OT|exact RB|exact Ct|exact Rt|exact HMN|exact HN|exact Hnc|exact Ho|exact Hb|exact Hsz|exact Hal|exact HW|
         exact DBA|exact DBt|exact cB|exact cA|exact ct|exact Hlast|].
      rewrite run_bind, Q1. clear Q1. change (negb (has (Z.lor ARMAS_LEFT ARMAS_TRANS) ARMAS_RIGHT)) with true in *. change (has (Z.lor ARMAS_LEFT ARMAS_TRANS) ARMAS_TRANS) with true in *.
      pose proof (kA m m2 Q3) as A2.
      assert (W1 : wp (l_solve_trm K E BT (one K) R (Z.lor ARMAS_LEFT ARMAS_UPPER)) L m2 (fun _ m3 =>
        solves_trm K false true false false m2 m3 (one K) R BT /\ outb cb (e_p E) BT m2 m3)).
      { apply (solve_wp K HF HE E L cb); auto; try reflexivity; [repeat split|]. right. intros i Hi. change (cols R) with N in Hi. unfold R. rewrite V_elt, !Z.add_0_l.
        rewrite A2 by (split; fold M N; lia). apply Hd; auto. }
      destruct W1 as (r1 & m3 & R1 & V1 & O1). rewrite run_bind, R1. clear R1. cbn [snd]. exists m3. split; [reflexivity|]. split.
      2:{ intros a X1 X2 X3. rewrite O1 by auto. apply Q3; auto. }
      intros j Hj. split.
      + intros c Hc. assert (Pc : pos BT c j) by (split; [change (rows BT) with N; lia|change (cols BT) with (cols B); lia]). specialize (V1 c j Pc). cbv iota in V1. change (cols R) with N in V1.
        transitivity (mul K (one K) (elt m2 BT c j)).
        * rewrite <- V1. unfold mv. apply (vsum_ext K). intros k Hk. unfold optri. rewrite (tr m2) by (auto; lia). unfold BT. rewrite V_elt, !Z.add_0_l. reflexivity.
        * unfold BT. rewrite V_elt, !Z.add_0_l. rewrite Q2 by (split; lia). unfold op_q, mvt. fold M N. ring.
      + intros i Hi. transitivity (elt m2 B i j); [|rewrite Q2 by (split; lia); reflexivity]. unfold elt. apply O1.
        * apply subm_notin; [apply OB|exact IB|split; lia|unfold inb; lia].
        * intros X. apply (cB _ X). exists i, j. split; [split; lia|reflexivity].
  Qed.

  (* when the workspace is large enough the square root is not used *)
  Lemma qrmult_w_isqrt : forall (E : lenv) isqrt sq C A tau flags w, let nc := if has flags ARMAS_RIGHT then rows C else cols C in
    (0 < e_lb E -> e_lb E < nc -> (nc + e_lb E) * e_lb E <= armas_wbytes w / e_p E) ->
    armas_qrmult_w K E isqrt (Some C) (Some A) (Some tau) flags (Some w) = armas_qrmult_w K E sq (Some C) (Some A) (Some tau) flags (Some w).
  Proof.
    intros E isqrt sq C A tau flags w nc H. unfold armas_qrmult_w. cbv zeta. fold nc.
    assert (X : qrmult_lb isqrt nc (armas_wbytes w / e_p E) (e_lb E) = qrmult_lb sq nc (armas_wbytes w / e_p E) (e_lb E)).
    { unfold qrmult_lb. destruct ((e_lb E >? 0) && (nc >? e_lb E)) eqn:El; [|reflexivity]. cbn [andb].
      apply andb_true_iff in El. destruct El as (E1 & E2). apply Z.gtb_lt in E1, E2.
      replace (armas_wbytes w / e_p E <? (nc + e_lb E) * e_lb E) with false by (symmetry; apply Z.ltb_ge; apply H; assumption). reflexivity. }
    rewrite X. reflexivity.
  Qed.

  Lemma qrsolve_w_isqrt : forall (E : lenv) isqrt sq B A tau flags w,
    (0 < e_lb E -> e_lb E < cols B -> (cols B + e_lb E) * e_lb E <= armas_wbytes w / e_p E) ->
    armas_qrsolve_w K E isqrt (Some B) (Some A) (Some tau) flags (Some w) = armas_qrsolve_w K E sq (Some B) (Some A) (Some tau) flags (Some w).
  Proof.
    intros E isqrt sq B A tau flags w H. unfold armas_qrsolve_w.
    rewrite (qrmult_w_isqrt E isqrt sq B A tau ARMAS_LEFT w), (qrmult_w_isqrt E isqrt sq B A tau (Z.lor ARMAS_LEFT ARMAS_TRANS) w); auto.
  Qed.
End Q.

(* ---- C82: armas_qrsolve_w, armas_qrsolve ---- *)
Theorem C82_qrsolve_w_partial : forall T (K : num T), is_field K -> eqb_ok K ->
  forall (E : lenv) isqrt L cb B A tau flags w (m : Z -> T),
  let n := w_bytes w - w_offset w in let M := rows A in let N := cols A in
  cfg_ok E L cb -> 0 <= e_lb E -> M < Z.of_nat (e_fuel E) -> cols B < Z.of_nat (e_fuel E) ->
  (let k := cols B * cols B + 4 * (n / e_p E) in 0 <= isqrt k /\ isqrt k * isqrt k <= k) ->
  mok L B -> mok L A -> mok L tau -> rows B = M -> cols tau = 1 -> rows tau = N -> N <= M -> 0 < N -> 0 < cols B ->
  0 <= w_offset w <= w_bytes w -> w_bytes w < 2 ^ 64 -> cols B * e_p E <= n -> armas_wptr w mod e_p E = 0 ->
  (forall a, in_bytes (armas_wptr w) n (e_p E) a -> L a = true /\ ~ cell B a /\ ~ cell A a /\ ~ cell tau a /\ ~ inbuf cb (e_p E) a) ->
  disjoint B A -> disjoint B tau -> clear_of cb (e_p E) B -> clear_of cb (e_p E) A -> clear_of cb (e_p E) tau ->
  (forall i, 0 <= i < N -> elt m A i i <> zero K) -> (N = M -> elt m tau (N - 1) 0 = zero K) ->
  exists m', armas_qrsolve_w K E isqrt (Some B) (Some A) (Some tau) flags (Some w) L m = Some ((0, Some w), m') /\
    (forall j, 0 <= j < cols B -> qr_solved K (has flags ARMAS_TRANS) M N (elt m A) (fun q => elt m tau q 0) (fun i => elt m B i j) (fun i => elt m' B i j)) /\
    (forall a, ~ cell B a -> ~ in_bytes (armas_wptr w) n (e_p E) a -> ~ inbuf cb (e_p E) a -> m' a = m a).
Proof. intros T K HF HE. exact (qrsolve_w_ok K HF HE). Qed.
Print Assumptions C82_qrsolve_w_partial.

(* with its own workspace, for which calloc returns b *)
Theorem C82_qrsolve_partial : forall T (K : num T), is_field K -> eqb_ok K ->
  forall (E : lenv) isqrt L cb B A tau flags b (m : Z -> T),
  let size := (cols B + e_lb E) * Z.max 1 (e_lb E) * e_p E in let M := rows A in let N := cols A in
  cfg_ok E L cb -> 0 <= e_lb E -> M < Z.of_nat (e_fuel E) -> cols B < Z.of_nat (e_fuel E) ->
  mok L B -> mok L A -> mok L tau -> rows B = M -> cols tau = 1 -> rows tau = N -> N <= M -> 0 < N -> 0 < cols B ->
  size < 2 ^ 64 -> b mod e_p E = 0 ->
  (forall a, in_bytes b size (e_p E) a -> L a = true /\ ~ cell B a /\ ~ cell A a /\ ~ cell tau a /\ ~ inbuf cb (e_p E) a) ->
  disjoint B A -> disjoint B tau -> clear_of cb (e_p E) B -> clear_of cb (e_p E) A -> clear_of cb (e_p E) tau ->
  (forall i, 0 <= i < N -> elt m A i i <> zero K) -> (N = M -> elt m tau (N - 1) 0 = zero K) ->
  exists m', armas_qrsolve K E isqrt (Some b) (Some B) (Some A) (Some tau) flags L m = Some (0, m') /\
    (forall j, 0 <= j < cols B -> qr_solved K (has flags ARMAS_TRANS) M N (elt m A) (fun q => elt m tau q 0) (fun i => elt m B i j) (fun i => elt m' B i j)) /\
    (forall a, ~ cell B a -> ~ in_bytes b size (e_p E) a -> ~ inbuf cb (e_p E) a -> m' a = m a).
Proof.
  intros T K HF HE E isqrt L cb B A tau flags b m size M N HC Hlb Hf Hfn OB OA OT RB Ct Rt HMN HN Hnc Hsz Hal HW DBA DBt cB cA ct Hd Hlast.
  assert (Hp : 0 < e_p E) by apply HC.
  set (n := if (e_lb E >? 0) && (cols B >? e_lb E) then (cols B + e_lb E) * e_lb E else cols B).
  assert (Hn : cols B <= n /\ n * e_p E <= size).
  { unfold n, size. destruct (e_lb E >? 0) eqn:E1; cbn [andb]; [destruct (cols B >? e_lb E); nia|nia]. }
  set (w := armas_walloc b (n * e_p E)).
  assert (Hw : forall a, in_bytes (armas_wptr w) (w_bytes w - w_offset w) (e_p E) a -> in_bytes b size (e_p E) a).
  { intros a. unfold w, armas_walloc, armas_wptr, in_bytes. cbn [w_buf w_bytes w_offset]. lia. }
  assert (Ed : (n * e_p E - 0) / e_p E = n) by (rewrite Z.sub_0_r; apply Z.div_mul; lia).
  assert (Esq : armas_qrsolve_w K E isqrt (Some B) (Some A) (Some tau) flags (Some w) = armas_qrsolve_w K E Z.sqrt (Some B) (Some A) (Some tau) flags (Some w)).
  { apply qrsolve_w_isqrt. intros X1 X2.
    assert (Y : armas_wbytes w / e_p E = n) by (unfold armas_wbytes, u64, w, armas_walloc; cbn [w_bytes w_offset]; rewrite Z.mod_small by nia; exact Ed).
    rewrite Y. unfold n. replace ((e_lb E >? 0) && (cols B >? e_lb E)) with true by Lia.lia. apply Z.le_refl. }
  destruct (C82_qrsolve_w_partial T K HF HE E Z.sqrt L cb B A tau flags w m) as (m' & R1 & R2 & R3);
    [exact HC|exact Hlb|exact Hf|exact Hfn| |exact OB|exact OA|exact OT|exact RB|exact Ct|exact Rt|exact HMN|exact HN|exact Hnc|
     cbn; nia|cbn; lia|unfold w, armas_walloc; cbn [w_bytes w_offset]; nia|unfold w, armas_walloc, armas_wptr; cbn [w_buf w_offset]; rewrite Z.add_0_r; exact Hal|intros a Ha; apply HW; auto|
     exact DBA|exact DBt|exact cB|exact cA|exact ct|exact Hd|exact Hlast|].
  { cbv zeta. unfold w, armas_walloc. cbn [w_bytes w_offset]. rewrite Ed. split; [apply Z.sqrt_nonneg|apply Z.sqrt_spec; nia]. }
  exists m'. split; [|split; [exact R2|]].
  - assert (Q : armas_qrsolve_w K E isqrt (Some B) (Some A) (Some tau) flags (Some (mkwbuf 0 0 0)) L m = Some ((0, Some (mkwbuf 0 (n * e_p E) 0)), m)) by reflexivity.
    unfold armas_qrsolve. rewrite run_bind, Q. cbv iota beta. cbn [fst snd w_bytes]. change (0 <? 0) with false. cbv iota zeta. replace (n * e_p E >? 0) with true by nia.
    rewrite run_bind. fold w. rewrite Esq, R1. reflexivity.
  - intros a X1 X2 X3. apply R3; auto.
Qed.
Print Assumptions C82_qrsolve_partial.

(* bad arguments are reported and nothing is written *)
Theorem C82_qrsolve_errors : forall T (K : num T) (E : lenv) isqrt L B A tau flags wb (m : Z -> T),
  let bad r := exists w', armas_qrsolve_w K E isqrt B A tau flags wb L m = Some ((- r, w'), m) in
  (B = None \/ A = None \/ tau = None -> bad ARMAS_EINVAL) /\
  (forall U V t, B = Some U -> A = Some V -> tau = Some t -> match wb with Some w => w_bytes w <> 0 | None => True end ->
     (rows U <> rows V -> bad ARMAS_ESIZE) /\
     (rows U = rows V ->
        match wb with Some w => 0 <= w_offset w <= w_bytes w /\ w_bytes w < 2 ^ 64 /\ w_bytes w - w_offset w < cols U * e_p E | None => True end -> bad ARMAS_EWORK)).
Proof.
  intros T K E isqrt L B A tau flags wb m bad. split.
  - intros H. exists wb. destruct B as [B|]; [|reflexivity]. destruct A as [A|]; [|reflexivity]. destruct tau as [tau|]; [|reflexivity]. exfalso. destruct H as [H|[H|H]]; discriminate.
  - intros U V t -> -> -> Hw. unfold bad, armas_qrsolve_w. clear bad.
    assert (Eq : match wb with Some w => w_bytes w =? 0 | None => false end = false) by (destruct wb; lia). rewrite Eq. split.
    + intros H. exists wb. replace (rows U =? rows V) with false by lia. reflexivity.
    + intros H1 H2. exists wb. rewrite H1, Z.eqb_refl. cbn [negb]. destruct wb as [w|]; [|reflexivity].
      replace (armas_wbytes w <? cols U * e_p E) with true; [reflexivity|]. symmetry. apply Z.ltb_lt. unfold armas_wbytes, u64. rewrite Z.mod_small by lia. lia.
Qed.
Print Assumptions C82_qrsolve_errors.

Section F.
  Context {T : Type} (K : num T).
  Hypotheses (HF : is_field K) (HO : is_ordered K) (HE : eqb_ok K) (HS : sqrt_ok K).

  Lemma factor_solve : forall (E : lenv) isqrt safmin steps L cb B A tau b1 b2 (m : Z -> T) flags,
    let size1 := cols A * Z.max 1 (e_lb E) * e_p E in let size2 := (cols B + e_lb E) * Z.max 1 (e_lb E) * e_p E in
    let M := rows A in let N := cols A in
    ltb K (zero K) safmin = true -> steps_ok K safmin steps ->
    cfg_ok E L cb -> 0 <= e_lb E -> M < Z.of_nat (e_fuel E) -> cols B < Z.of_nat (e_fuel E) ->
    mok L B -> mok L A -> mok L tau -> rows B = M -> cols tau = 1 -> rows tau = N -> N <= M -> 0 < N -> 0 < cols B ->
    size1 < 2 ^ 64 -> size2 < 2 ^ 64 -> b1 mod e_p E = 0 -> b2 mod e_p E = 0 ->
    (forall a, in_bytes b1 size1 (e_p E) a \/ in_bytes b2 size2 (e_p E) a -> L a = true /\ ~ cell B a /\ ~ cell A a /\ ~ cell tau a /\ ~ inbuf cb (e_p E) a) ->
    disjoint A tau -> disjoint B A -> disjoint B tau -> clear_of cb (e_p E) B -> clear_of cb (e_p E) A -> clear_of cb (e_p E) tau ->
    independent K M N (elt m A) ->
    exists m1 m2, armas_qrfactor K E safmin steps (Some b1) (Some A) tau L m = Some (0, m1) /\
      armas_qrsolve K E isqrt (Some b2) (Some B) (Some A) (Some tau) flags L m1 = Some (0, m2) /\
      qr_result K M N (elt m A) (elt m1 A) (fun q => elt m1 tau q 0) /\
      (forall i, 0 <= i < N -> elt m1 A i i <> zero K) /\
      (forall i j, pos B i j -> elt m1 B i j = elt m B i j) /\
      forall j, 0 <= j < cols B -> qr_solved K (has flags ARMAS_TRANS) M N (elt m1 A) (fun q => elt m1 tau q 0) (fun i => elt m1 B i j) (fun i => elt m2 B i j).
  Proof.
    intros E isqrt safmin steps L cb B A tau b1 b2 m flags size1 size2 M N Hsp Hst HC Hlb Hf Hfn OB OA OT RB Ct Rt HMN HN Hnc
      Hs1 Hs2 Ha1 Ha2 HW DAt DBA DBt cB cA ct HI.
    destruct (C79_qrfactor_partial T K HF HO HE HS E safmin steps L cb A tau b1 m) as (m1 & R1 & R2 & _ & _ & R5);
      [exact Hsp|exact Hst|exact HC|exact Hlb|exact Hf|exact OA|exact OT|exact Ct|fold N; lia|exact HMN|exact HN|exact Hs1|exact Ha1|
       intros a Ha; destruct (HW a (or_introl Ha)) as (Y1 & _ & Y3); split; [exact Y1|exact Y3]|exact DAt|exact cA|exact ct|].
    exists m1.
    assert (Hd : forall i, 0 <= i < N -> elt m1 A i i <> zero K) by (intros i Hi; apply (indep_diag K HF M N (elt m A) _ _ R2); auto; lia).
    destruct (C82_qrsolve_partial T K HF HE E isqrt L cb B A tau flags b2 m1) as (m2 & S1 & S2 & _);
      [exact HC|exact Hlb|exact Hf|exact Hfn|exact OB|exact OA|exact OT|exact RB|exact Ct|exact Rt|exact HMN|exact HN|exact Hnc|exact Hs2|exact Ha2|
       intros a Ha; apply HW; auto|exact DBA|exact DBt|exact cB|exact cA|exact ct|exact Hd|intros X; destruct R2 as (_ & _ & _ & P4); apply P4; [symmetry; exact X|exact HN]|].
    exists m2. split; [exact R1|]. split; [exact S1|]. split; [exact R2|]. split; [exact Hd|]. split; [|exact S2].
    intros i j Hpp. assert (Xc : cell B (elems B + j * step B + i)) by (exists i, j; auto). unfold elt. apply R5.
    - intros X. apply (DBA _ Xc X).
    - intros X. apply (DBt _ Xc X).
    - intros X. destruct (HW (elems B + j * step B + i)) as (_ & Y & _); auto.
    - intros X. apply (cB _ X Xc).
  Qed.
End F.

(* armas_qrfactor then armas_qrsolve: every column of B becomes, in its first rows, the x with the smallest |A*x - b|,
   the only such x, and the other rows hold a vector as long as the residual.  A is the matrix before the factorization *)
Theorem C82_least_squares_partial : forall T (K : num T), is_field K -> is_ordered K -> eqb_ok K -> sqrt_ok K ->
  forall (E : lenv) isqrt safmin steps L cb B A tau b1 b2 (m : Z -> T) flags,
  let size1 := cols A * Z.max 1 (e_lb E) * e_p E in let size2 := (cols B + e_lb E) * Z.max 1 (e_lb E) * e_p E in
  let M := rows A in let N := cols A in
  has flags ARMAS_TRANS = false ->
  ltb K (zero K) safmin = true -> steps_ok K safmin steps ->
  cfg_ok E L cb -> 0 <= e_lb E -> M < Z.of_nat (e_fuel E) -> cols B < Z.of_nat (e_fuel E) ->
  mok L B -> mok L A -> mok L tau -> rows B = M -> cols tau = 1 -> rows tau = N -> N <= M -> 0 < N -> 0 < cols B ->
  size1 < 2 ^ 64 -> size2 < 2 ^ 64 -> b1 mod e_p E = 0 -> b2 mod e_p E = 0 ->
  (forall a, in_bytes b1 size1 (e_p E) a \/ in_bytes b2 size2 (e_p E) a -> L a = true /\ ~ cell B a /\ ~ cell A a /\ ~ cell tau a /\ ~ inbuf cb (e_p E) a) ->
  disjoint A tau -> disjoint B A -> disjoint B tau -> clear_of cb (e_p E) B -> clear_of cb (e_p E) A -> clear_of cb (e_p E) tau ->
  independent K M N (elt m A) ->
  exists m1 m2, armas_qrfactor K E safmin steps (Some b1) (Some A) tau L m = Some (0, m1) /\
    armas_qrsolve K E isqrt (Some b2) (Some B) (Some A) (Some tau) flags L m1 = Some (0, m2) /\
    forall j, 0 <= j < cols B ->
      let res x := nsq K M (fun i => sub K (mv K N (elt m A) x i) (elt m B i j)) in let x := fun i => elt m2 B i j in
      (forall x', ltb K (res x') (res x) = false) /\
      (forall x', res x' = res x -> forall i, 0 <= i < N -> x' i = x i) /\
      res x = nsq K (M - N) (fun r => elt m2 B (N + r) j).
Proof.
  intros T K HF HO HE HS E isqrt safmin steps L cb B A tau b1 b2 m flags size1 size2 M N Ft Hsp Hst HC Hlb Hf Hfn OB OA OT RB Ct Rt HMN HN Hnc
    Hs1 Hs2 Ha1 Ha2 HW DAt DBA DBt cB cA ct HI.
  destruct (factor_solve K HF HO HE HS E isqrt safmin steps L cb B A tau b1 b2 m flags) as (m1 & m2 & R1 & R2 & RQ & Hd & EB & RS);
    [exact Hsp|exact Hst|exact HC|exact Hlb|exact Hf|exact Hfn|exact OB|exact OA|exact OT|exact RB|exact Ct|exact Rt|exact HMN|exact HN|exact Hnc|exact Hs1|exact Hs2|exact Ha1|exact Ha2|
     exact HW|exact DAt|exact DBA|exact DBt|exact cB|exact cA|exact ct|exact HI|].
  exists m1, m2. split; [exact R1|]. split; [exact R2|]. intros j Hj. cbv zeta. specialize (RS j Hj). rewrite Ft in RS. unfold qr_solved in RS. cbv zeta iota in RS. fold M N in RS. fold M N in RQ.
  set (b := fun i => elt m1 B i j) in *. set (x := fun i => elt m2 B i j) in *.
  assert (EQ : forall i, 0 <= i < M -> mvt K M (qmat K M (elt m1 A) (fun q => elt m1 tau q 0) (Z.to_nat N)) b i = qtapply K M (elt m1 A) (fun q => elt m1 tau q 0) (Z.to_nat N) b i).
  { intros i Hi. symmetry. apply (qt_entry K HF). exact Hi. }
  destruct RS as (S1 & S2).
  assert (Eres : forall x', nsq K M (fun i => sub K (mv K N (elt m A) x' i) (elt m B i j)) = nsq K M (fun i => sub K (mv K N (elt m A) x' i) (b i))).
  { intros x'. apply nsq_ext. intros i Hi. unfold b. rewrite EB by (split; lia). reflexivity. }
  assert (HX : forall i, 0 <= i < N -> mv K N (upper K (elt m1 A)) x i = qtapply K M (elt m1 A) (fun q => elt m1 tau q 0) (Z.to_nat N) b i) by (intros i Hi; rewrite S1 by auto; apply EQ; lia).
  assert (HNM : 0 <= N <= M) by lia.
  destruct (ls_min K HF HO M N _ _ _ RQ HNM x b HX) as (L1 & L2). split; [|split].
  - intros x'. rewrite !Eres. apply L1.
  - intros x' He. rewrite !Eres in He. apply (ls_unique K HF HE HO M N _ _ _ RQ HNM x b Hd HX x' He).
  - rewrite Eres, L2. apply nsq_ext. intros r Hr. rewrite <- EQ by lia. symmetry. apply S2. lia.
Qed.
Print Assumptions C82_least_squares_partial.

(* with ARMAS_TRANS: the first rows of a column of B are the right hand side, the column becomes the shortest solution of A^T*x = b *)
Theorem C82_min_norm_partial : forall T (K : num T), is_field K -> is_ordered K -> eqb_ok K -> sqrt_ok K ->
  forall (E : lenv) isqrt safmin steps L cb B A tau b1 b2 (m : Z -> T) flags,
  let size1 := cols A * Z.max 1 (e_lb E) * e_p E in let size2 := (cols B + e_lb E) * Z.max 1 (e_lb E) * e_p E in
  let M := rows A in let N := cols A in
  has flags ARMAS_TRANS = true ->
  ltb K (zero K) safmin = true -> steps_ok K safmin steps ->
  cfg_ok E L cb -> 0 <= e_lb E -> M < Z.of_nat (e_fuel E) -> cols B < Z.of_nat (e_fuel E) ->
  mok L B -> mok L A -> mok L tau -> rows B = M -> cols tau = 1 -> rows tau = N -> N <= M -> 0 < N -> 0 < cols B ->
  size1 < 2 ^ 64 -> size2 < 2 ^ 64 -> b1 mod e_p E = 0 -> b2 mod e_p E = 0 ->
  (forall a, in_bytes b1 size1 (e_p E) a \/ in_bytes b2 size2 (e_p E) a -> L a = true /\ ~ cell B a /\ ~ cell A a /\ ~ cell tau a /\ ~ inbuf cb (e_p E) a) ->
  disjoint A tau -> disjoint B A -> disjoint B tau -> clear_of cb (e_p E) B -> clear_of cb (e_p E) A -> clear_of cb (e_p E) tau ->
  independent K M N (elt m A) ->
  exists m1 m2, armas_qrfactor K E safmin steps (Some b1) (Some A) tau L m = Some (0, m1) /\
    armas_qrsolve K E isqrt (Some b2) (Some B) (Some A) (Some tau) flags L m1 = Some (0, m2) /\
    forall j, 0 <= j < cols B ->
      let sol x := forall i, 0 <= i < N -> mvt K M (elt m A) x i = elt m B i j in let x := fun i => elt m2 B i j in
      sol x /\ forall x', sol x' -> ltb K (nsq K M x') (nsq K M x) = false.
Proof.
  intros T K HF HO HE HS E isqrt safmin steps L cb B A tau b1 b2 m flags size1 size2 M N Ft Hsp Hst HC Hlb Hf Hfn OB OA OT RB Ct Rt HMN HN Hnc
    Hs1 Hs2 Ha1 Ha2 HW DAt DBA DBt cB cA ct HI.
  destruct (factor_solve K HF HO HE HS E isqrt safmin steps L cb B A tau b1 b2 m flags) as (m1 & m2 & R1 & R2 & RQ & Hd & EB & RS);
    [exact Hsp|exact Hst|exact HC|exact Hlb|exact Hf|exact Hfn|exact OB|exact OA|exact OT|exact RB|exact Ct|exact Rt|exact HMN|exact HN|exact Hnc|exact Hs1|exact Hs2|exact Ha1|exact Ha2|
     exact HW|exact DAt|exact DBA|exact DBt|exact cB|exact cA|exact ct|exact HI|].
  exists m1, m2. split; [exact R1|]. split; [exact R2|]. intros j Hj. cbv zeta. specialize (RS j Hj). rewrite Ft in RS. unfold qr_solved in RS. cbv zeta iota in RS. fold M N in RS. fold M N in RQ.
  destruct RS as (u & S1 & S2). set (x := fun i => elt m2 B i j) in *. assert (HNM : 0 <= N <= M) by lia.
  destruct (mn_ok K HF HO M N _ _ _ RQ HNM u x (fun i => elt m1 B i j)) as (L1 & L2).
  - exact S1.
  - intros i Hi. etransitivity; [exact (S2 i Hi)|]. symmetry. apply (q_entry K HF). exact Hi.
  - split.
    + intros i Hi. rewrite L1 by auto. apply EB. split; lia.
    + intros x' Hx'. apply L2; auto. intros i Hi. rewrite Hx' by auto. symmetry. apply EB. split; lia.
Qed.
Print Assumptions C82_min_norm_partial.

Definition qs_f (lb : Z) (cb : option cbuf) (B A tau : view) (flags : Z) (m : Z -> Qc) :=
  armas_qrsolve_w Qcnum (qr_E 0 lb cb) Z.sqrt (Some B) (Some A) (Some tau) flags (Some (mkwbuf 4000 320 0)) cp_L m.

(* a tau of the wrong length: the multiplication by Q is refused, and 0 is returned.  With R = I, v = (1,0,0) and tau = (2,0,0) the
   result should start with -1 and starts with 1 *)
Theorem C82_tau_refuted : let m a := if a =? 300 then qc 2 else if (a =? 200) || (a =? 208) || (400 <=? a) then qc 1 else qc 0 in
  exists w m', qs_f 64 (Some ge_cb) (qm_C 3 1) (lu_A 3 2) (qr_t 3) 0 m = Some ((0, w), m') /\
    (Qc_eq_bool (mvt Qcnum 3 (qmat Qcnum 3 (elt m (lu_A 3 2)) (fun q => elt m (qr_t 3) q 0) 2) (fun i => elt m (qm_C 3 1) i 0) 0) (qc (-1)) = true /\
     Qc_eq_bool (mv Qcnum 2 (upper Qcnum (elt m (lu_A 3 2))) (fun i => elt m' (qm_C 3 1) i 0) 0) (qc 1) = true).
Proof. intros m. qrun E. vm_compute. repeat split. Qed.
Print Assumptions C82_tau_refuted.

(* a zero on the diagonal of R: 0 is returned, R*x is not the right hand side and another x has a smaller residual (Q is the identity) *)
Theorem C82_singular_refuted : let m a := if (a =? 207) || (400 <=? a) then qc 1 else qc 0 in
  exists w m', qs_f 64 (Some ge_cb) (qm_C 3 1) (lu_A 3 2) (qr_t 2) 0 m = Some ((0, w), m') /\
    let res x := nsq Qcnum 3 (fun i => sub Qcnum (mv Qcnum 2 (upper Qcnum (elt m (lu_A 3 2))) x i) (elt m (qm_C 3 1) i 0)) in
    (Qc_eq_bool (elt m (qr_t 2) 0 0) (qc 0) && Qc_eq_bool (elt m (qr_t 2) 1 0) (qc 0) = true /\
     ltb Qcnum (res (fun _ => qc 1)) (res (fun i => elt m' (qm_C 3 1) i 0)) = true).
Proof. intros m. qrun E. vm_compute. repeat split. Qed.
Print Assumptions C82_singular_refuted.

(* more columns than rows is not refused: memory after B is written *)
Theorem C82_wide_refuted : let m a := if a =? 208 then qc 2 else if (a =? 200) || (400 <=? a) then qc 1 else qc 0 in
  ~ cell (qm_C 1 1) 401 /\
  exists w m', qs_f 64 (Some ge_cb) (qm_C 1 1) (lu_A 1 2) (qr_t 2) 0 m = Some ((0, w), m') /\ Qc_eq_bool (m' 401) (m 401) = false.
Proof.
  intros m. split; [intros (i & j & (H1 & H2) & H3); unfold qm_C in *; cbn [rows cols elems step] in *; lia|]. qrun E. vm_compute. split; reflexivity.
Qed.
Print Assumptions C82_wide_refuted.

(* a blocked least squares problem with 5 rows, 3 columns and 3 right hand sides *)
Lemma qs_indep : forall m : Z -> R, m 200 = 1%R /\ m 201 = 0%R /\ m 202 = 0%R /\ m 207 = 1%R /\ m 208 = 1%R /\ m 209 = 0%R /\ m 214 = 1%R /\ m 215 = 1%R /\ m 216 = 1%R -> independent Rnum 5 3 (elt m (lu_A 5 3)).
Proof.
  intros m (H1 & H2 & H3 & H4 & H5 & H6 & H7 & H8 & H9) x Hx k Hk. pose proof (Hx 0 ltac:(lia)) as E0. pose proof (Hx 1 ltac:(lia)) as E1. pose proof (Hx 2 ltac:(lia)) as E2.
  cbv [mv vsum bigsum Z.to_nat Pos.to_nat Pos.iter_op Nat.add Z.of_nat Pos.of_succ_nat Pos.succ elt elems step lu_A Z.add Z.mul Pos.add Pos.mul Pos.add_carry Pos.succ Rnum zero add mul] in E0, E1, E2.
  rewrite H1, H4, H7 in E0. rewrite H2, H5, H8 in E1. rewrite H3, H6, H9 in E2. change (zero Rnum) with 0%R.
  assert (k = 0 \/ k = 1 \/ k = 2) as [->|[->| ->]] by lia; lra.
Qed.

Example C82_least_squares_nonvacuous : let m a := if a =? 400 then 7%R else if (a =? 201) || (a =? 202) || (a =? 209) then 0%R else 1%R in let B := qm_C 5 3 in let A := lu_A 5 3 in
  exists m1 m2, armas_qrfactor Rnum (lu_E 2) (/ 2)%R Rsteps (Some 4000) (Some A) (qr_t 3) cp_L m = Some (0, m1) /\
    armas_qrsolve Rnum (lu_E 2) Z.sqrt (Some 4000) (Some B) (Some A) (Some (qr_t 3)) 0 cp_L m1 = Some (0, m2) /\
    forall x', ltb Rnum (nsq Rnum 5 (fun i => sub Rnum (mv Rnum 3 (elt m A) x' i) (elt m B i 0))) (nsq Rnum 5 (fun i => sub Rnum (mv Rnum 3 (elt m A) (fun k => elt m2 B k 0) i) (elt m B i 0))) = false.
Proof.
  intros m B A. destruct (qr_cells 5 3 3) as (X1 & X2 & X3 & X4 & X5 & X6); try lia.
  assert (CC : forall a, cell B a -> 400 <= a < 440) by (intros a (i & j & (P1 & P2) & ->); unfold B, qm_C in *; cbn [rows cols elems step] in *; lia).
  assert (CA : forall a, cell A a -> 200 <= a < 250) by (intros a (i & j & (P1 & P2) & ->); unfold A, lu_A in *; cbn [rows cols elems step] in *; lia).
  assert (CT : forall a, cell (qr_t 3) a -> 300 <= a < 310) by (intros a (i & j & (P1 & P2) & ->); unfold qr_t in *; cbn [rows cols elems step] in *; lia).
  destruct (C82_least_squares_partial R Rnum R_field R_ordered R_eqb R_sqrt_ok (lu_E 2) Z.sqrt (/ 2)%R Rsteps cp_L ge_cb B A (qr_t 3) 4000 4000 m 0)
    as (m1 & m2 & R1 & R2 & R3); [reflexivity|apply Rhalf|apply Rsteps_ok|apply qr_cfg|cbn; lia|cbn; lia|cbn; lia| |exact X1|exact X2|reflexivity|reflexivity|reflexivity|cbn; lia|cbn; lia|cbn; lia|
     cbn; lia|cbn; lia|reflexivity|reflexivity| |exact X3| | | |exact X4|exact X5| |].
  - split; [repeat split; cbn; lia|intros a Ha; apply CC in Ha; unfold cp_L; lia].
  - intros a Y. assert (Y' : in_bytes 4000 320 8 a) by (destruct Y as [(Y1 & Y2)|(Y1 & Y2)]; cbn in Y1, Y2; split; lia).
    destruct (X6 a Y') as (Z1 & Z2 & Z3 & Z4). split; [exact Z1|]. split; [|auto]. intros X. apply CC in X. destruct Y' as (Y1 & Y2). lia.
  - intros a Y1 Y2. apply CC in Y1. apply CA in Y2. lia.
  - intros a Y1 Y2. apply CC in Y1. apply CT in Y2. lia.
  - intros a (Y1 & Y2) Y3. apply CC in Y3. cbn in Y1. lia.
  - apply (qs_indep m). unfold m. repeat split.
  - exists m1, m2. split; [exact R1|]. split; [exact R2|]. destruct (R3 0) as (S1 & _); [cbn; lia|]. exact S1.
Qed.

Example C82_min_norm_nonvacuous : let m a := if a =? 400 then 7%R else if (a =? 201) || (a =? 202) || (a =? 209) then 0%R else 1%R in let B := qm_C 5 3 in let A := lu_A 5 3 in
  exists m1 m2, armas_qrfactor Rnum (lu_E 2) (/ 2)%R Rsteps (Some 4000) (Some A) (qr_t 3) cp_L m = Some (0, m1) /\
    armas_qrsolve Rnum (lu_E 2) Z.sqrt (Some 4000) (Some B) (Some A) (Some (qr_t 3)) ARMAS_TRANS cp_L m1 = Some (0, m2) /\
    forall i, 0 <= i < 3 -> mvt Rnum 5 (elt m A) (fun k => elt m2 B k 0) i = elt m B i 0.
Proof.
  intros m B A. destruct (qr_cells 5 3 3) as (X1 & X2 & X3 & X4 & X5 & X6); try lia.
  assert (CC : forall a, cell B a -> 400 <= a < 440) by (intros a (i & j & (P1 & P2) & ->); unfold B, qm_C in *; cbn [rows cols elems step] in *; lia).
  assert (CA : forall a, cell A a -> 200 <= a < 250) by (intros a (i & j & (P1 & P2) & ->); unfold A, lu_A in *; cbn [rows cols elems step] in *; lia).
  assert (CT : forall a, cell (qr_t 3) a -> 300 <= a < 310) by (intros a (i & j & (P1 & P2) & ->); unfold qr_t in *; cbn [rows cols elems step] in *; lia).
  destruct (C82_min_norm_partial R Rnum R_field R_ordered R_eqb R_sqrt_ok (lu_E 2) Z.sqrt (/ 2)%R Rsteps cp_L ge_cb B A (qr_t 3) 4000 4000 m ARMAS_TRANS)
    as (m1 & m2 & R1 & R2 & R3); [reflexivity|apply Rhalf|apply Rsteps_ok|apply qr_cfg|cbn; lia|cbn; lia|cbn; lia| |exact X1|exact X2|reflexivity|reflexivity|reflexivity|cbn; lia|cbn; lia|cbn; lia|
     cbn; lia|cbn; lia|reflexivity|reflexivity| |exact X3| | | |exact X4|exact X5| |].
  - split; [repeat split; cbn; lia|intros a Ha; apply CC in Ha; unfold cp_L; lia].
  - intros a Y. assert (Y' : in_bytes 4000 320 8 a) by (destruct Y as [(Y1 & Y2)|(Y1 & Y2)]; cbn in Y1, Y2; split; lia).
    destruct (X6 a Y') as (Z1 & Z2 & Z3 & Z4). split; [exact Z1|]. split; [|auto]. intros X. apply CC in X. destruct Y' as (Y1 & Y2). lia.
  - intros a Y1 Y2. apply CC in Y1. apply CA in Y2. lia.
  - intros a Y1 Y2. apply CC in Y1. apply CT in Y2. lia.
  - intros a (Y1 & Y2) Y3. apply CC in Y3. cbn in Y1. lia.
  - apply (qs_indep m). unfold m. repeat split.
  - exists m1, m2. split; [exact R1|]. split; [exact R2|]. destruct (R3 0) as (S1 & _); [cbn; lia|]. exact S1.
Qed.
