(* PLuInv.v: the inverse of a general matrix, one column at a time. *)
From Coq Require Import ZArith Lia Bool ZifyBool Ring Field.
From Verif Require Import Mem MView SpecView PView PSub Hoare MFlags MBase MCopy PUpd PCopy
  MNum SpecNum MBlas1 PSum PBlas1 MElem PElem MBlas2 PMvec PBlas2 PFrame SpecTrm MTrm PTrm MGemm PGemm PMatcpy PMult
  MTrsm PTrsm MTrmm PTrmm MLap PLap MQr MQrMul PQrMul MInv PInvM PInv MLuInv
  Properties_Copy Properties_Blas1 Properties_Blas2 Properties_Gemm Properties_Trm Properties_Trsm Properties_Trmm.
Local Open Scope Z_scope.
Local Open Scope prog_scope.
Ltac lia := nobool; zlia.

Section P.
  Context {T : Type} (K : num T).
  Hypotheses (HF : is_field K) (HE : eqb_ok K).
  Let HR : is_ring K := Field_theory.F_R HF.
  Let HR' : ring_theory (zero K) (one K) (add K) (mul K) (sub K) (opp K) eq := HR.
  Add Ring KringLI : HR'.
  Local Notation "a +' b" := (add K a b) (at level 50, left associativity).
  Local Notation "a -' b" := (sub K a b) (at level 50, left associativity).
  Local Notation "a *' b" := (mul K a b) (at level 40, left associativity).
  Local Notation "0'" := (zero K).
  Local Notation "1'" := (one K).
  Local Notation tr := (tr K).
  Local Notation dlt := (dlt K).

  Variables (E : lenv) (L : Z -> bool) (cb : cbuf).
  Variables (A : view) (W : Z).
  Hypotheses (EO : env_ok E L cb A) (OKA : mok L A) (Sq : rows A = cols A).
  Let n := cols A.
  Hypotheses (HW : forall a, W <= a < W + n -> L a = true /\ ~ cell A a).
  Local Notation V := (armas_submatrix_unsafe A).
  Local Notation "m .[ i , j ]" := (elt m A i j) (at level 1, format "m .[ i ,  j ]").
  Local Notation only := (blk_only E cb A).

  (* what changes: A and the workspace of w elements *)
  Definition outw (w : Z) (m m' : Z -> T) : Prop :=
    forall a, ~ cell A a -> ~ W <= a < W + w -> ~ inbuf cb (e_p E) a -> m' a = m a.

  (* row p of X*L in column j *)
  Definition xl (m m' : Z -> T) (p j : Z) : T := m'.[p, j] +' vsum K (n - 1 - j) (fun q => m'.[p, j + 1 + q] *' m.[j + 1 + q, j]).

  (* columns k and above are done *)
  Definition linv (m : Z -> T) (k : Z) (m' : Z -> T) : Prop :=
    (forall i j, pos A i j -> j < k -> m'.[i, j] = m.[i, j]) /\
    (forall i j, pos A i j -> k <= j -> vsum K n (fun p => tr true (elt m A) i p *' xl m m' p j) = dlt i j) /\
    outw n m m'.

  (* x := alpha*T^-1*x with the upper triangle *)
  Lemma mvsolve_wp : forall r c nr r1 c1 alpha m (Q : Z -> (Z -> T) -> Prop),
    inA A r c nr 1 -> inA A r1 c1 nr nr -> r + nr <= r1 \/ r1 + nr <= r \/ c + 1 <= c1 \/ c1 + nr <= c ->
    (forall i, 0 <= i < nr -> m.[r1 + i, c1 + i] <> 0') ->
    (forall m', (forall i, 0 <= i < nr -> vsum K nr (fun q =>
          tr true (fun i j => m.[r1 + i, c1 + j]) i q *' m'.[r + q, c]) = alpha *' m.[r + i, c]) -> only r c nr 1 m m' -> Q 0 m') ->
    wp (l_mvsolve_trm K E (V r c nr 1) alpha (V r1 c1 nr nr) ARMAS_UPPER) L m Q.
  Proof.
    intros r c nr r1 c1 alpha m Q I1 I2 D NZ HQ. unfold l_mvsolve_trm. pose proof EO as (E1 & E2 & E3 & E4 & _).
    pose proof I1 as (H1 & H2 & H3 & H4 & H5 & H6).
    destruct (V_col L A OKA _ _ _ I1) as (Vx & Wx & Lx). destruct (V_ok L A OKA _ _ _ _ I2) as (W2 & L2).
    destruct (C23_mvsolve_trm T K HF HE (e_fuel E) (e_b1 E) (e_b2 E) (e_opt E) L m (V r c nr 1) alpha (V r1 c1 nr nr) ARMAS_UPPER) as (m' & R1 & R2 & R3); auto.
    + rewrite col_len. lia.
    + apply (V_disj L); auto.
    + rewrite col_len. reflexivity.
    + right. intros i Hi. cbn [cols armas_submatrix_unsafe armas_make] in Hi. rewrite V_elt. apply NZ. auto.
    + exists 0, m'. split; [exact R1|]. apply HQ; [|apply (blk_frame E L); auto; apply outb_oc; auto].
      intros i Hi. specialize (R2 i). rewrite col_len, col_velt in R2 by auto. rewrite <- R2 by auto. apply vsum_ext. intros q Hq.
      rewrite col_velt by auto. f_equal.
      change (has ARMAS_UPPER ARMAS_TRANS && (has ARMAS_UPPER ARMAS_UPPER || has ARMAS_UPPER ARMAS_LOWER)) with false.
      change (has ARMAS_UPPER ARMAS_UNIT) with false. change (has ARMAS_UPPER ARMAS_UPPER) with true.
      rewrite (optri_tr K) by discriminate. unfold PInvM.tr. rewrite V_elt. reflexivity.
  Qed.

  (* the column below the diagonal goes to the workspace *)
  Lemma save_wp : forall r c nr m (Q : Z -> (Z -> T) -> Prop), inA A r c nr 1 -> nr <= n ->
    (forall m', (forall i, 0 <= i < nr -> m' (W + i) = m.[r + i, c]) -> (forall a, ~ W <= a < W + nr -> m' a = m a) -> Q 0 m') ->
    wp (armas_copy (armas_make nr 1 nr W) (V r c nr 1)) L m Q.
  Proof.
    intros r c nr m Q I1 Hn HQ. pose proof I1 as (H1 & H2 & H3 & H4 & H5 & H6).
    destruct (V_col L A OKA _ _ _ I1) as (Vx & Wx & Lx).
    assert (CW : forall a, cell (armas_make nr 1 nr W) a <-> W <= a < W + nr).
    { intros a. unfold cell, pos. cbn [rows cols elems step armas_make]. split.
      - intros (i & j & Hp & ->). assert (j = 0) as -> by lia. lia.
      - intros Ha. exists (a - W), 0. split; lia. }
    assert (VW : forall (m : Z -> T) i, 0 <= i < nr -> velt m (armas_make nr 1 nr W) i = m (W + i)).
    { intros m0 i Hi. unfold velt, vec_pos. cbn [rows cols armas_make]. destruct (nr =? 1) eqn:X.
      - apply Z.eqb_eq in X. unfold elt. cbn [fst snd elems step armas_make]. f_equal. lia.
      - unfold elt. cbn [fst snd elems step armas_make]. f_equal. lia. }
    destruct (C08_copy T L m (armas_make nr 1 nr W) (V r c nr 1)) as (m' & R1 & R2 & _ & R4); auto.
    - repeat split; cbn [rows cols step armas_make]; lia.
    - intros a Ha. apply CW in Ha. apply HW. lia.
    - intros a Ha Hb. apply CW in Ha. destruct (HW a ltac:(lia)) as (_ & X). apply X. apply (V_in L A OKA _ _ _ _ a I1 Hb).
    - exists 0, m'. split; [exact R1|]. apply HQ.
      + intros i Hi. specialize (R2 i). rewrite col_len in R2. rewrite VW, col_velt in R2 by auto. apply R2; auto.
        change (i < nr * 1). lia.
      + intros a Ha. apply R4. rewrite CW. auto.
  Qed.

  Lemma zero_wp : forall r c nr m (Q : Z -> (Z -> T) -> Prop), inA A r c nr 1 ->
    (forall m', (forall i, 0 <= i < nr -> m'.[r + i, c] = 0') -> only r c nr 1 m m' -> (forall a, ~ cell A a -> m' a = m a) -> Q 0 m') ->
    wp (armas_scale K (V r c nr 1) 0') L m Q.
  Proof.
    intros r c nr m Q I1 HQ. destruct (V_col L A OKA _ _ _ I1) as (Vx & Wx & Lx).
    destruct (C10_scale T K L m (V r c nr 1) 0' Wx Lx Vx) as (m' & R1 & R2 & R3).
    exists 0, m'. split; [exact R1|]. apply HQ.
    - intros i Hi. specialize (R2 i). rewrite col_len, !col_velt in R2 by auto. rewrite R2 by auto. ring.
    - apply (blk_frame E L); auto; apply outb_oc; auto.
    - intros a Ha. apply R3. intros X. apply Ha. apply (V_in L A OKA _ _ _ _ a I1 X).
  Qed.

  (* a1 := a1 - A2*l21 *)
  Lemma col_wp : forall c c1 kk m (Q : Z -> (Z -> T) -> Prop), inA A 0 c n 1 -> inA A 0 c1 n kk -> c + 1 <= c1 ->
    (forall m', (forall i, 0 <= i < n -> m'.[i, c] = m.[i, c] -' vsum K kk (fun q => m.[i, c1 + q] *' m (W + q))) ->
       only 0 c n 1 m m' -> Q 0 m') ->
    wp (l_mvmult K E 1' (V 0 c n 1) (opp K 1') (V 0 c1 n kk) (armas_make kk 1 kk W) 0) L m Q.
  Proof.
    intros c c1 kk m Q I1 I2 D1 HQ. unfold l_mvmult. pose proof EO as (E1 & E2 & E3 & E4 & _).
    pose proof I1 as (H1 & H2 & H3 & H4 & H5 & H6). pose proof I2 as (G1 & G2 & G3 & G4 & G5 & G6). fold n in H6, G6.
    destruct (Z.eq_dec kk 0) as [Z3|Z3].
    { exists 0, m. unfold armas_mvmult, armas_size; cbn [rows cols armas_submatrix_unsafe armas_make];
        rewrite ?Z3, ?Z.mul_0_r, ?Z.mul_0_l, ?orb_true_r; cbn [orb Z.eqb]; (split; [reflexivity|]);
        (apply HQ; [|split; [intros; reflexivity|apply outb_refl]]); intros i Hi. rewrite vsum_0 by lia. ring. }
    assert (CW : forall a, cell (armas_make kk 1 kk W) a <-> W <= a < W + kk).
    { intros a. unfold cell, pos. cbn [rows cols elems step armas_make]. split.
      - intros (i & j & Hp & ->). assert (j = 0) as -> by lia. lia.
      - intros Ha. exists (a - W), 0. split; lia. }
    assert (VW : forall (m : Z -> T) i, 0 <= i < kk -> velt m (armas_make kk 1 kk W) i = m (W + i)).
    { intros m0 i Hi. unfold velt, vec_pos. cbn [rows cols armas_make]. destruct (kk =? 1) eqn:X.
      - apply Z.eqb_eq in X. unfold elt. cbn [fst snd elems step armas_make]. f_equal. lia.
      - unfold elt. cbn [fst snd elems step armas_make]. f_equal. lia. }
    destruct (V_col L A OKA _ _ _ I1) as (Vy & Wy & Ly). destruct (V_ok L A OKA _ _ _ _ I2) as (W2 & L2).
    assert (LW : vlen (armas_make kk 1 kk W) = kk) by (unfold vlen; cbn [rows cols armas_make]; lia).
    destruct (C19_mvmult T K HR HE (e_fuel E) (e_b2 E) (e_opt E) L m 1' (V 0 c n 1) (opp K 1') (V 0 c1 n kk) (armas_make kk 1 kk W) 0)
      as (m' & R1 & R2 & R3); auto.
    + rewrite col_len. unfold n. lia.
    + right. reflexivity.
    + repeat split; cbn [rows cols step armas_make]; lia.
    + intros a Ha. apply CW in Ha. apply HW. lia.
    + apply (V_disj L); auto; lia.
    + intros a Ha Hb. apply CW in Hb. destruct (HW a ltac:(lia)) as (_ & X). apply X. apply (V_in L A OKA _ _ _ _ a I1 Ha).
    + change (0 < n). lia.
    + change (0 < kk). lia.
    + rewrite col_len. reflexivity.
    + exists 0, m'. split; [exact R1|]. apply HQ; [|apply (blk_frame E L); auto; apply outb_oc; auto].
      intros i Hi. specialize (R2 i). rewrite LW, !col_len in R2. rewrite !col_velt in R2 by lia. rewrite Z.add_0_l in R2.
      rewrite R2 by lia. change (has 0 ARMAS_TRANS) with false. cbv iota.
      rewrite (vsum_ext K kk _ (fun q => m.[i, c1 + q] *' m (W + q))); [ring|].
      intros q Hq. rewrite V_elt, VW by auto. reflexivity.
  Qed.

  Hypothesis HB : forall a, W <= a < W + n -> ~ inbuf cb (e_p E) a.

  Lemma outw_trans : forall w m m1 m2, outw w m m1 -> outw w m1 m2 -> outw w m m2.
  Proof. intros w m m1 m2 H1 H2 a X Y Z. rewrite H2, H1; auto. Qed.
  Lemma outw_b : forall w m m', outb cb (e_p E) A m m' -> outw w m m'.
  Proof. intros w m m' H a X Y Z. apply H; auto. Qed.

  (* the elements of A are not in the workspace *)
  Lemma elt_keep : forall w (m m' : Z -> T), w <= n -> (forall a, ~ W <= a < W + w -> m' a = m a) -> forall i j, pos A i j -> m'.[i, j] = m.[i, j].
  Proof.
    intros w m m' Hw H i j Hp. apply H. intros X. destruct (HW (elems A + j * step A + i) ltac:(lia)) as (_ & Y). apply Y. exists i, j. auto.
  Qed.

  (* the new column: v is column k of U^-1 *)
  Lemma lcol_step : forall m k m1 m2, 0 <= k < n -> linv m (k + 1) m1 -> m.[k, k] <> 0' ->
    (exists v : Z -> T, v k = div K 1' (m.[k, k]) /\ (forall i, k < i < n -> v i = 0') /\ (forall i, 0 <= i < k -> vsum K k (fun q => tr true (elt m A) i q *' v q) = opp K (div K 1' (m.[k, k])) *' m.[i, k]) /\ (forall i, 0 <= i < n -> m2.[i, k] = v i -' vsum K (n - 1 - k) (fun q => m1.[i, k + 1 + q] *' m.[k + 1 + q, k]))) ->
    (forall i j, pos A i j -> j <> k -> m2.[i, j] = m1.[i, j]) -> outw n m1 m2 -> linv m k m2.
  Proof.
    intros m k m1 m2 Hk (J1 & J2 & J3) N0 (v & V1 & V2 & V3 & V4) F1 F2. split; [|split].
    - intros i j Hp Hj. rewrite F1 by (auto; lia). apply J1; auto. lia.
    - intros i j Hp Hj. pose proof Hp as (Hi & Hj2). fold n in Hj2. rewrite Sq in Hi. fold n in Hi.
      assert (XS : forall p, 0 <= p < n -> j <> k -> xl m m2 p j = xl m m1 p j).
      { intros p Hp' Hne. unfold xl. rewrite F1; [|split; [rewrite Sq|]; fold n; lia|auto]. f_equal. apply vsum_ext. intros q Hq.
        rewrite F1; [reflexivity|split; [rewrite Sq|]; fold n; lia|lia]. }
      destruct (Z.eq_dec j k) as [->|Hne].
      + rewrite (vsum_ext K n _ (fun p => tr true (elt m A) i p *' v p)).
        2:{ intros p Hp'. f_equal. unfold xl. rewrite V4 by auto.
            rewrite (vsum_ext K _ (fun q => m2.[p, k + 1 + q] *' m.[k + 1 + q, k]) (fun q => m1.[p, k + 1 + q] *' m.[k + 1 + q, k])).
            - ring.
            - intros q Hq. rewrite F1; [reflexivity|split; [rewrite Sq|]; fold n; lia|lia]. }
        rewrite (sum_range K HF n 0 (k + 1)); try lia.
        2:{ intros p Hp' Ho. rewrite V2 by lia. ring. }
        rewrite (vsum_ext K (k + 1) _ (fun p => tr true (elt m A) i p *' v p)) by (intros; reflexivity).
        rewrite vsum_S by lia. rewrite V1. pose proof (Field_theory.Finv_l HF m.[k, k] N0) as DV.
        unfold PInvM.dlt. destruct (i =? k) eqn:X.
        * apply Z.eqb_eq in X. subst i. rewrite (vsum_zero K HR).
          -- unfold PInvM.tr, inT. replace (k <=? k) with true by Lia.lia. transitivity (div K 1' (m.[k, k]) *' m.[k, k]); [ring|exact DV].
          -- intros p Hp'. unfold PInvM.tr, inT. replace (k <=? p) with false by Lia.lia. ring.
        * apply Z.eqb_neq in X. assert (C : i < k \/ k < i) by lia. destruct C as [C|C].
          -- rewrite V3 by lia. unfold PInvM.tr, inT. replace (i <=? k) with true by Lia.lia. ring.
          -- rewrite (vsum_zero K HR).
             ++ unfold PInvM.tr, inT. replace (i <=? k) with false by Lia.lia. ring.
             ++ intros p Hp'. unfold PInvM.tr, inT. replace (i <=? p) with false by Lia.lia. ring.
      + rewrite <- (J2 i j Hp ltac:(lia)). apply vsum_ext. intros p Hp'. rewrite XS by auto. reflexivity.
    - eapply outw_trans; eauto.
  Qed.

  Lemma linv_n : forall m, linv m n m.
  Proof. intros m. split; [reflexivity|split]. - intros i j (Hi & Hj) Hn. fold n in Hj. exfalso. lia. - intros a _ _ _. reflexivity. Qed.

  Lemma lunblk_wp : forall m ce, (forall i, 0 <= i < n -> m.[i, i] <> 0') ->
    wp (unblk_inverse_fused K E A W ce) L m (fun s m' => s = (0, ce) /\ linv m 0 m').
  Proof.
    intros m ce NZ. pose proof EO as (_ & _ & Hf1 & Hf2 & _). pose proof OKA as ((W1 & W2 & W3) & _). fold n in W2, Hf2.
    unfold unblk_inverse_fused. wbind.
    replace (ATL (mat_partition_2x2 A 0 0 PBottom)) with (subm A 0 0 n n).
    2:{ unfold mat_partition_2x2. cbn [ATL]. rewrite ?Z.sub_0_r, Sq. reflexivity. }
    apply (wp_up L A 1 _ (fun k st m' => fst st = (0, ce) /\ cols (snd st) = k /\ k <= n /\ linv m k m')); try lia.
    - split; [reflexivity|]. split; [|split; [lia|apply linv_n]].
      unfold mat_partition_1x2. replace (0 >? cols A) with false by Lia.lia. cbn [fst snd cols armas_submatrix_unsafe armas_make]. unfold n. lia.
    - intros q (s & AL) m1 Hq (S1 & S2 & S3 & HI). cbn [fst snd] in *. subst s. cbv zeta. replace (Z.min 1 q) with 1 by lia.
      unfold mat_repartition_1x2to1x3. rewrite S2. replace (1 >? q) with false by Lia.lia. unfold b3at. cbn [A00 A01 A11 A21].
      rewrite !Sq. fold n. replace (q - 1 + 1) with q by lia. replace (n - (q - 1) - 1) with (n - q) by lia.
      set (k := q - 1). replace q with (k + 1) in * by (unfold k; lia). clearbody k. replace (n - (k + 1)) with (n - 1 - k) by lia.
      pose proof HI as (J1 & J2 & J3).
      assert (I11 : inA A k k 1 1) by (unfold inA; rewrite Sq; fold n; lia).
      assert (I01 : inA A 0 k k 1) by (unfold inA; rewrite Sq; fold n; lia).
      assert (I00 : inA A 0 0 k k) by (unfold inA; rewrite Sq; fold n; lia).
      assert (I21 : inA A (k + 1) k (n - 1 - k) 1) by (unfold inA; rewrite Sq; fold n; lia).
      assert (Ic : inA A 0 k n 1) by (unfold inA; rewrite Sq; fold n; lia).
      assert (I2 : inA A 0 (k + 1) n (n - 1 - k)) by (unfold inA; rewrite Sq; fold n; lia).
      assert (PP : forall i j, 0 <= i < n -> 0 <= j < n -> pos A i j) by (intros; split; [rewrite Sq|]; fold n; lia).
      assert (U1 : forall i j, 0 <= i < n -> 0 <= j <= k -> m1.[i, j] = m.[i, j]) by (intros; apply J1; [apply PP|]; lia).
      assert (N0 : m.[k, k] <> 0') by (apply NZ; lia).
      wbind. wbind. apply (getu_wp L A OKA); auto. rewrite U1 by lia.
      destruct (eqb K m.[k, k] 0') eqn:EZ; [apply HE in EZ; contradiction|].
      wbind. apply (setu_wp E L cb A EO OKA); auto. intros m2 A1 (A2 & A3).
      wbind. rewrite <- (Z.add_0_l k) at 1.
      apply (mvsolve_wp 0 (0 + k) k 0 0); auto.
      + lia.
      + intros i Hi. rewrite !Z.add_0_l. rewrite A2; [|apply PP; lia|unfold inb; lia]. rewrite U1 by lia. apply NZ. lia.
      + rewrite Z.add_0_l. intros m3 B1 (B2 & B3). cbn [rows cols armas_submatrix_unsafe armas_make].
        wbind. apply save_wp; auto; [lia|]. intros m4 C1 C2.
        wbind. apply zero_wp; auto. intros m5 D1 (D2 & D3) D4.
        wbind. apply col_wp; auto; [lia|]. intros m6 F1 (F2 & F3).
        wbind. unfold armas_get, armas_size. cbn [rows cols armas_submatrix_unsafe armas_make]. replace (1 * 1 =? 0) with false by reflexivity.
        replace (0 <? 0) with false by reflexivity.
        apply wp_rd.
        { destruct OKA as (_ & AL0). apply AL0. exists k, k. split; [apply PP; lia|]. cbn [elems step armas_submatrix_unsafe armas_make]. lia. }
        apply wp_ret. apply wp_ret. cbn [fst snd].
        split; [reflexivity|]. split; [unfold mat_continue_1x3to1x2; cbn [fst snd cols armas_submatrix_unsafe armas_make]; lia|]. split; [lia|].
        replace (k + 1 - 1) with k by lia.
        assert (K4 := elt_keep (n - 1 - k) m3 m4 ltac:(lia) C2).
        apply (lcol_step m k m1 m6); auto; [lia| | |].
        * exists (fun i => m5.[i, k]). split; [|split; [|split]].
          -- rewrite D2; [|apply PP; lia|unfold inb; lia]. rewrite K4 by (apply PP; lia). rewrite B2; [exact A1|apply PP; lia|unfold inb; lia].
          -- intros i Hi. specialize (D1 (i - k - 1) ltac:(lia)). replace (k + 1 + (i - k - 1)) with i in D1 by lia. exact D1.
          -- intros i Hi. specialize (B1 i Hi). rewrite Z.add_0_l in B1. rewrite A2 in B1; [|apply PP; lia|unfold inb; lia]. rewrite U1 in B1 by lia.
             rewrite <- B1. apply vsum_ext. intros p Hp. rewrite Z.add_0_l. f_equal.
             ++ unfold PInvM.tr. destruct (inT true i p); [|reflexivity]. rewrite !Z.add_0_l. rewrite A2; [|apply PP; lia|unfold inb; lia]. rewrite U1 by lia. reflexivity.
             ++ rewrite D2; [|apply PP; lia|unfold inb; lia]. apply K4. apply PP; lia.
          -- intros i Hi. rewrite F1 by auto. f_equal. apply vsum_ext. intros p Hp. f_equal.
             ++ rewrite D2; [|apply PP; lia|unfold inb; lia]. rewrite K4 by (apply PP; lia). rewrite B2; [|apply PP; lia|unfold inb; lia].
                apply A2; [apply PP; lia|unfold inb; lia].
             ++ rewrite D4; [|apply HW; lia]. rewrite C1 by lia. rewrite B2; [|apply PP; lia|unfold inb; lia].
                rewrite A2; [|apply PP; lia|unfold inb; lia]. apply U1; lia.
        * intros i j Hp Hne. rewrite F2; [|auto|unfold inb; lia]. rewrite D2; [|auto|unfold inb; lia]. rewrite K4 by auto.
          rewrite B2; [|auto|unfold inb; lia]. apply A2; auto. unfold inb; lia.
        * intros a X Y Z. rewrite F3, D4, C2, B3, A3; auto. lia.
    - intros (s & AL) m1 (S1 & S2 & S3 & HI). apply wp_ret. cbn [fst] in *. auto.
  Qed.
End P.
