(* PInvSpdS.v: the inverse of a positive definite matrix when the factor has a zero on its diagonal. *)
From Coq Require Import ZArith Lia Bool ZifyBool Ring Field.
From Verif Require Import Mem MView SpecView PView PSub Hoare MFlags MBase MCopy PUpd PCopy
  MNum SpecNum MBlas1 PSum PBlas1 MElem PElem MBlas2 PMvec PBlas2 MSym PSym PFrame SpecTrm MTrm PTrm MGemm PGemm PMatcpy PMult
  MTrsm PTrsm MSymm PSymm MUpdTrm PUpdTrm MLap PLap MQr MQrMul PQrMul MInv PInvM PInv MLuInv PLuInv PLuInvB MInvSpd PInvSpdM PInvSpd PInvSpdB
  Properties_Copy Properties_Blas1 Properties_Sym Properties_Gemm Properties_Trm Properties_Trsm Properties_Symm Properties_UpdTrm Properties_Chol.
Local Open Scope Z_scope.
Local Open Scope prog_scope.
Ltac lia := nobool; zlia.

Section P.
  Context {T : Type} (K : num T).
  Hypotheses (HF : is_field K) (HE : eqb_ok K).
  Let HR : is_ring K := Field_theory.F_R HF.
  Local Notation "0'" := (zero K).
  Local Notation "1'" := (one K).

  Variables (E : lenv) (L : Z -> bool) (cb : cbuf) (lo : bool).

  (* the outcome: a zero among the diagonal elements from k on is reported *)
  Definition sres (A : view) (m : Z -> T) (k : Z) (ce : Z) (s : Z * Z) : Prop :=
    (s = (0, ce) /\ forall i, k <= i < cols A -> elt m A i i <> 0') \/ (s = (-1, ARMAS_ESINGULAR) /\ exists i, k <= i < cols A /\ elt m A i i = 0').
  (* columns below k and the other triangle are as before *)
  Definition sfr (A : view) (W w : Z) (m : Z -> T) (k : Z) (m' : Z -> T) : Prop :=
    (forall i j, 0 <= i < cols A -> 0 <= j < cols A -> j < k \/ i < j -> acc lo A m' i j = acc lo A m i j) /\ outw E cb A W w m m'.

  Section U.
  Variables (A : view) (W w : Z).
  Hypotheses (EO : env_ok E L cb A) (OKA : mok L A) (Sq : rows A = cols A).
  Let n := cols A.
  Hypotheses (HW : forall a, W <= a < W + w -> L a = true /\ ~ cell A a).
  Local Notation V := (armas_submatrix_unsafe A).
  Local Notation "m .[ i , j ]" := (elt m A i j) (at level 1, format "m .[ i ,  j ]").
  Local Notation acc := (acc lo A).
  Local Notation yv := (yv lo A).
  Local Notation lv := (lv W w).
  Local Notation sflags := (sflags lo).

  Lemma acc_dia : forall (m : Z -> T) i, acc m i i = m.[i, i].
  Proof. intros m i. unfold PInvSpd.acc. destruct lo; reflexivity. Qed.

  Lemma sround_wp : forall m m1 k s ce (Q : Z * Z -> (Z -> T) -> Prop), 0 <= k < n -> n - 1 <= w -> 0 < w -> sres A m (k + 1) ce s -> sfr A W w m (k + 1) m1 ->
    (forall s' m', sres A m k ce s' -> sfr A W w m k m' -> Q s' m') ->
    wp (invpsd_round K E (V k k 1 1) (yv k) (V (k + 1) (k + 1) (n - k - 1) (n - k - 1)) (armas_make w 1 w W) sflags s) L m1 Q.
  Proof.
    intros m m1 k s ce Q Hk Hw Hw0 HS (J1 & J3) HQ. pose proof EO as (E1 & E2 & E3 & E4 & _). rewrite Sq in E3. fold n in E3, E4, J1.
    assert (PP : forall i j, 0 <= i < n -> 0 <= j < n -> pos A i j) by (intros; split; [rewrite Sq|]; fold n; lia).
    unfold invpsd_round. destruct HS as [(-> & NZ)|(-> & i0 & Hi0 & Z0)]; cbn [fst].
    2:{ change (-1 <? 0) with true. cbv iota. apply wp_ret. apply HQ; [right; split; [reflexivity|exists i0; split; [lia|exact Z0]]|].
        split; [|exact J3]. intros i j Hi Hj Hc. apply J1; auto. lia. }
    change (0 <? 0) with false. cbv iota.
    assert (I11 : inA A k k 1 1) by (unfold inA; rewrite Sq; fold n; lia).
    assert (I22 : inA A (k + 1) (k + 1) (n - k - 1) (n - k - 1)) by (unfold inA; rewrite Sq; fold n; lia).
    assert (A11 : m1.[k, k] = m.[k, k]) by (rewrite <- !acc_dia; apply J1; lia).
    destruct (yv_ok L lo A OKA Sq k Hk) as (Yv & Yw & Yl). destruct (lv_ok L A W w HW (n - k - 1) ltac:(lia)) as (Lv & Lw & Ll). destruct (V_ok L A OKA _ _ _ _ I22) as (W2 & L2).
    pose proof (yv_len lo A k) as YL. fold n in YL.
    assert (DL : disjoint (lv (n - k - 1)) (yv k)).
    { intros a Ha Hb. apply (lv_cell A) in Ha. destruct (HW a ltac:(lia)) as (_ & X). apply X. apply (yv_in L lo A OKA Sq k); auto. }
    wbind. apply (getu_wp L A OKA); auto. rewrite A11. destruct (eqb K m.[k, k] 0') eqn:EZ.
    { apply HE in EZ. apply wp_ret. apply HQ; [right; split; [reflexivity|exists k; split; [fold n; lia|exact EZ]]|].
      split; [|exact J3]. intros i j Hi Hj Hc. apply J1; auto. lia. }
    assert (NZk : m.[k, k] <> 0') by (intros X; rewrite (proj2 (HE _ _) X) in EZ; discriminate).
    set (d := m.[k, k]) in *. cbv zeta.
    assert (ES : armas_size (yv k) = n - k - 1) by (unfold armas_size, PInvSpd.yv; fold n; destruct lo; cbn [rows cols armas_submatrix_unsafe armas_make]; lia).
    replace (armas_submatrix (armas_make w 1 w W) 0 0 (armas_size (yv k)) 1) with (lv (n - k - 1)).
    2:{ rewrite ES. unfold armas_submatrix, armas_submatrix_ext, armas_size. cbn [rows cols step elems armas_make].
        replace (w * 1 =? 0) with false by Lia.lia. change (0 <? 0) with false. change (1 <? 0) with false. cbv iota zeta.
        replace (n - k - 1 <? 0) with false by Lia.lia. replace (w <? 0) with false by Lia.lia. unfold PInvSpd.lv, armas_make. f_equal. lia. }
    wbind. destruct (C08_copy T L m1 (lv (n - k - 1)) (yv k)) as (m2 & R1 & R2 & _ & R4); auto. exists 0, m2. split; [exact R1|]. clear R1.
    assert (B2 : forall i j, 0 <= i < n -> 0 <= j < n -> m2.[i, j] = m1.[i, j]).
    { intros i j Hi Hj. apply R4. rewrite (lv_cell A). intros X. destruct (HW (elems A + j * step A + i) ltac:(lia)) as (_ & Y). apply Y. exists i, j. auto. }
    wbind. destruct (C21_mvmult_sym T K HR HE (e_fuel E) (e_b1 E) (e_b2 E) L m2 0' (yv k) (div K (opp K 1') d) (V (k + 1) (k + 1) (n - k - 1) (n - k - 1)) (lv (n - k - 1)) sflags (negb lo))
      as (m3 & S1 & S2 & S3); auto.
    { unfold PInvSpd.sflags. destruct lo; reflexivity. }
    { unfold PInvSpd.sflags. destruct lo; reflexivity. }
    { cbn [cols armas_submatrix_unsafe armas_make]. lia. }
    { intros a (i & j & Hp & _ & Hc). apply L2. exists i, j. auto. }
    { unfold PInvSpd.yv. fold n. destruct lo; apply (V_disj L); auto; try lia; unfold inA; rewrite Sq; fold n; lia. }
    all: try (apply disj_sym; auto; fail). all: try (rewrite YL; reflexivity). all: try (rewrite (lv_len A); reflexivity).
    exists 0, m3. split; [exact S1|]. clear S1. destruct (yv_acc E L cb lo A EO OKA Sq k m2 m3 Hk S3) as (C1 & C2).
    wbind. unfold l_dot. eexists _, m3. split.
    { apply (C14_dot T K HR (e_fuel E) L m3 (e_b1 E) (e_opt E) (yv k) (lv (n - k - 1))); auto; rewrite YL; [rewrite (lv_len A); reflexivity|lia]. }
    wbind. apply (setu_wp E L cb A EO OKA); auto. intros m4 D1 (D2 & D3). apply wp_ret. apply HQ.
    - left. split; [reflexivity|]. intros i Hi. destruct (Z.eq_dec i k) as [->|Hne]; [exact NZk|]. apply NZ. lia.
    - split.
      + intros i j Hi Hj Hc. fold n in Hi, Hj. transitivity (acc m3 i j).
        { unfold PInvSpd.acc. destruct lo; apply D2; try (apply PP; auto); unfold inb; lia. }
        rewrite C1 by (fold n; lia). transitivity (acc m1 i j); [unfold PInvSpd.acc; destruct lo; apply B2; auto|]. apply J1; lia.
      + intros a X Y Z. rewrite D3 by auto. rewrite C2 by auto. rewrite R4 by (rewrite (lv_cell A); lia). apply J3; auto.
  Qed.

  Lemma sunblk_wp : forall m ce, n - 1 <= w -> (0 < n -> 0 < w) ->
    wp (if lo then unblk_invpsd_lower K E A (armas_make w 1 w W) ce else unblk_invpsd_upper K E A (armas_make w 1 w W) ce) L m
      (fun s m' => sres A m 0 ce s /\ sfr A W w m 0 m').
  Proof.
    intros m ce Hw Hw0. pose proof EO as (_ & _ & Hf1 & Hf2 & _). pose proof OKA as ((W1 & W2 & W3) & _). fold n in W2, Hf2.
    assert (X : wp (up_loop (e_fuel E) A 1 (fun t s => invpsd_round K E (A11 t) (if lo then A21 t else A12 t) (A22 t) (armas_make w 1 w W) sflags s) (subm A 0 0 n n) (0, ce)) L m
      (fun s m' => sres A m 0 ce s /\ sfr A W w m 0 m')).
    { apply (wp_up L A 1 _ (fun k st m' => sres A m k ce st /\ sfr A W w m k m')); try lia.
      - split; [left; split; [reflexivity|intros i Hi; exfalso; fold n in Hi; lia]|]. split; [reflexivity|intros a _ _ _; reflexivity].
      - intros q s m1 Hq (HS & HI). cbv zeta. replace (Z.min 1 q) with 1 by lia. unfold b3at. cbn [A11 A12 A21 A22]. rewrite !Sq. fold n.
        set (k := q - 1). replace q with (k + 1) in * by (unfold k; lia). clearbody k.
        change (if lo then subm A (k + 1) k (n - k - 1) 1 else subm A k (k + 1) 1 (n - k - 1)) with (yv k).
        apply (sround_wp m m1 k s ce); auto; try lia. apply Hw0; lia.
      - auto. }
    unfold unblk_invpsd_lower, unblk_invpsd_upper.
    replace (ATL (mat_partition_2x2 A 0 0 PBottom)) with (subm A 0 0 n n) by (unfold mat_partition_2x2; cbn [ATL]; rewrite ?Z.sub_0_r, Sq; reflexivity).
    unfold PInvSpd.sflags in X. destruct lo; exact X.
  Qed.
  End U.

  Section B.
  Variables (A : view) (W w lb : Z).
  Hypotheses (EO : env_ok E L cb A) (OKA : mok L A) (Sq : rows A = cols A) (Hlb : 0 <= lb).
  Let n := cols A.
  Hypotheses (HW : forall a, W <= a < W + w -> L a = true /\ ~ cell A a /\ ~ inbuf cb (e_p E) a).
  Local Notation chs := (armas_cache_setup2 cb (e_mb E) (e_nb E) (e_kb E) (e_p E)).
  Local Notation bok := (buf_ok L cb (e_mb E) (e_nb E) (e_kb E) (e_p E)).
  Hypotheses (HS : symm_blocks (negb lo) A chs) (HU : lo = false -> upper_ok E cb A).
  Local Notation V := (armas_submatrix_unsafe A).
  Local Notation "m .[ i , j ]" := (elt m A i j) (at level 1, format "m .[ i ,  j ]").
  Local Notation acc := (acc lo A).
  Local Notation outb := (outb cb (e_p E)).

  Section R.
    Variables (k b r : Z).
    Hypotheses (Hk : 0 <= k) (Hb : 0 < b) (Hr : 0 <= r) (Hn : k + b + r = n) (Hbl : b <= lb) (Hw : lb + r * b <= w).
    Local Notation Y := (yb lo A k b r).
    Local Notation LW := (lwb lo W lb b r).
    Local Notation D := (V k k b b).
    Local Notation A2 := (V (k + b) (k + b) r r).

    (* the solver runs, whatever the diagonal *)
    Lemma ssolve : forall X m (Q : Z -> (Z -> T) -> Prop), mok L X -> disjoint X D -> bok X D D -> bok X X X -> shp lo X b r ->
      (forall m', outb X m m' -> Q 0 m') -> wp (l_solve_trm K E X 1' D (sf lo)) L m Q.
    Proof.
      intros X m Q OX DX BX BX2 SX HQ. pose proof EO as (E1 & E2 & E3 & E4 & E5 & _). rewrite Sq in E3. fold n in E3, E4.
      assert (SX' : rows X <= n /\ cols X <= n) by (unfold shp in SX; destruct lo; lia).
      assert (OD : mok L D) by (apply (V_ok L A OKA); unfold inA; rewrite Sq; fold n; lia).
      apply (solve_any_wp K HF HE E L cb X D); auto.
      - split; [exact E1|]. split; [exact E2|]. split; [lia|]. split; [lia|]. auto.
      - unfold sf. destruct lo; reflexivity.
      - unfold sf. destruct lo; reflexivity.
      - unfold sf. destruct lo; repeat split; reflexivity.
      - unfold sf, shp in *. cbn [cols armas_submatrix_unsafe armas_make]. destruct lo; apply SX.
    Qed.

    Lemma sbround : forall m m1 s ce (Q : Z * Z -> (Z -> T) -> Prop),
      sres A m (k + b) ce s -> sfr A W w m (k + b) m1 ->
      (forall s' m', sres A m k ce s' -> sfr A W w m k m' -> Q s' m') ->
      wp (armas_mcopy LW Y 0 ;;
          l_mult_sym K E 0' Y (opp K 1') A2 LW (fm lo) ;;
          l_solve_trm K E Y 1' D (sf lo) ;;
          l_solve_trm K E LW 1' D (sf lo) ;;
          u <- (if lo then unblk_invpsd_lower K E D (armas_make lb 1 lb W) (snd s) else unblk_invpsd_upper K E D (armas_make lb 1 lb W) (snd s)) ;;
          l_update_trm K E 1' D (opp K 1') (if lo then Y else LW) (if lo then LW else Y) (fu lo) ;;
          ret (spd_err (fst s) u)) L m1 Q.
    Proof.
      intros m m1 s ce Q HR0 (J1 & J3) HQ. fold n in J1.
      pose proof (Y_ok E L cb lo A OKA Sq HS HU k b r Hk Hb Hr Hn) as OY. pose proof (LW_ok E L cb lo A W w lb Sq HW HS HU k b r Hk Hb Hr Hn Hbl Hw) as OL.
      assert (Yin : forall a, cell Y a -> cell A a) by (apply (Y_in E L cb lo A OKA Sq HS HU k b r Hk Hb Hr Hn)).
      assert (Din : forall a, cell D a -> cell A a) by (intros a; apply (V_in L A OKA); unfold inA; rewrite Sq; fold n; lia).
      assert (Lin : forall a, cell LW a -> L a = true /\ ~ cell A a /\ ~ inbuf cb (e_p E) a) by (apply (LW_in E L cb lo A W w lb Sq HW HS HU k b r Hk Hb Hr Hn Hbl Hw)).
      assert (BO : forall X1 X2 X3, (forall a, cell X1 a \/ cell X2 a \/ cell X3 a -> cell A a \/ cell LW a) -> bok X1 X2 X3) by (apply (BOK E L cb lo A W w lb EO Sq HW HS HU k b r Hk Hb Hr Hn Hbl Hw)).
      wbind. apply (psave E L cb lo A W w lb OKA Sq HW HS HU k b r Hk Hb Hr Hn Hbl Hw). intros m2 _ F2. apply (fr_L E L cb lo A W w lb EO Sq HW HS HU k b r Hk Hb Hr Hn Hbl Hw) in F2. destruct F2 as (F2 & G2).
      wbind. apply (pmsym K HF HE E L cb lo A W w lb EO OKA Sq HW HS HU k b r Hk Hb Hr Hn Hbl Hw). intros m3 _ F3. apply (fr_Y E L cb lo A EO OKA Sq HS HU k b r Hk Hb Hr Hn) in F3. destruct F3 as (F3 & G3).
      wbind. apply (ssolve Y); auto.
      { apply (YD E L cb lo A OKA Sq HS HU k b r Hk Hb Hr Hn). }
      { apply BO. intros a [X|[X|X]]; left; auto. }
      { apply BO. intros a [X|[X|X]]; left; auto. }
      { apply (Y_shp E cb lo A HS HU). }
      intros m4 F4. apply (fr_Y E L cb lo A EO OKA Sq HS HU k b r Hk Hb Hr Hn) in F4. destruct F4 as (F4 & G4).
      wbind. apply (ssolve LW); auto.
      { intros a X Z. apply Lin in X. apply Din in Z. tauto. }
      { apply BO. intros a [X|[X|X]]; auto. }
      { apply BO. intros a [X|[X|X]]; auto. }
      { apply (LW_shp E cb lo A W lb HS HU). }
      intros m5 F5. apply (fr_L E L cb lo A W w lb EO Sq HW HS HU k b r Hk Hb Hr Hn Hbl Hw) in F5. destruct F5 as (F5 & G5). fold n in F2, F3, F4, F5.
      assert (U5 : forall i j, 0 <= i < n -> 0 <= j < n -> j < k + b \/ i < j -> ~ (k <= j < k + b /\ k + b <= i) -> acc m5 i j = acc m i j).
      { intros i j Hi Hj Hc Hne. rewrite F5, F4, F3, F2 by lia. apply J1; auto. }
      assert (OD : mok L D) by (apply (V_ok L A OKA); unfold inA; rewrite Sq; fold n; lia).
      assert (aD : forall (mm : Z -> T) i j, PInvSpd.acc lo D mm i j = acc mm (k + i) (k + j)) by (intros mm i j; unfold PInvSpd.acc; destruct lo; apply V_elt).
      wbind. eapply wp_conseq; [apply (sunblk_wp D W lb)|].
      { apply (V_env E L cb A EO OKA). unfold inA; rewrite Sq; fold n; lia. }
      { exact OD. }
      { reflexivity. }
      { intros a Ha. destruct (HW a ltac:(nia)) as (X1 & X2 & _). split; [exact X1|]. intros C. apply X2, Din, C. }
      { cbn [cols armas_submatrix_unsafe armas_make]. lia. }
      { lia. }
      intros u m6 (HU6 & P1 & P3). cbn [cols armas_submatrix_unsafe armas_make] in P1.
      wbind. apply (pupd K HF HE E L cb lo A W w lb EO OKA Sq HW HS HU k b r Hk Hb Hr Hn Hbl Hw). intros m7 A7 F7. apply (fr_D E L cb lo A EO OKA Sq HS HU k b r Hk Hb Hr Hn) in F7. destruct F7 as (F7 & G7). fold n in F7.
      apply wp_ret. apply HQ.
      - assert (dg : forall i, 0 <= i < b -> elt m5 D i i = m.[k + i, k + i]).
        { intros i Hi. rewrite V_elt. rewrite <- !acc_dia. apply U5; lia. }
        unfold sres in HU6. cbn [cols armas_submatrix_unsafe armas_make] in HU6. fold n.
        destruct HR0 as [(-> & N0)|(-> & i0 & Hi0 & Z0)]; cbn [fst snd] in *; [fold n in N0|fold n in Hi0].
        + destruct HU6 as [(-> & N1)|(-> & i1 & Hi1 & Z1)].
          * left. split; [reflexivity|]. intros i Hi. destruct (Z_lt_ge_dec i (k + b)) as [C|C]; [|apply N0; fold n in Hi; lia].
            specialize (N1 (i - k) ltac:(lia)). rewrite dg in N1 by lia. replace (k + (i - k)) with i in N1 by lia. exact N1.
          * right. split; [reflexivity|]. exists (k + i1). split; [fold n; lia|]. rewrite <- dg by lia. exact Z1.
        + right. split; [destruct HU6 as [(-> & _)|(-> & _)]; reflexivity|]. exists i0. split; [fold n; lia|exact Z0].
      - assert (L0 : forall i j, 0 <= i < n -> 0 <= j < n -> ~ (k <= j < k + b /\ k <= i < k + b) -> acc m6 i j = acc m5 i j).
        { assert (Y0 : forall i j, 0 <= i < n -> 0 <= j < n -> ~ (k <= j < k + b /\ k <= i < k + b) -> m6.[i, j] = m5.[i, j]).
          { intros i j Hi Hj Hne. assert (Pij : pos A i j) by (split; [rewrite Sq|]; fold n; lia). assert (C : cell A (elems A + j * step A + i)) by (exists i, j; auto). apply P3.
            - intros C'. apply Hne. apply (subm_cell A k k b b i j) in C'; auto; try lia; try apply OKA; rewrite ?Sq; fold n; lia.
            - intros X. destruct (HW _ ltac:(split; [apply X|]; nia)) as (_ & Z & _). tauto.
            - apply (not_buf E L cb A EO). exact C. }
          intros i j Hi Hj Hne. unfold PInvSpd.acc. destruct lo; apply Y0; lia. }
        split.
        + intros i j Hi Hj Hc. fold n in Hi, Hj.
          assert (X : acc m7 i j = acc m5 i j); [|rewrite X; apply U5; lia].
          destruct (Z_lt_ge_dec i (k + b)) as [C1|C1]; [destruct (Z_le_gt_dec k j) as [C2|C2]; [destruct (Z_lt_ge_dec j (k + b)) as [C3|C3]; [destruct (Z_le_gt_dec k i) as [C4|C4]|]|]|].
          all: try (rewrite F7, L0 by lia; reflexivity).
          specialize (A7 (i - k) (j - k) ltac:(lia) ltac:(lia)). replace (k + (i - k)) with i in A7 by lia. replace (k + (j - k)) with j in A7 by lia. rewrite A7.
          replace (j - k <=? i - k) with false by Lia.lia.
          specialize (P1 (i - k) (j - k) ltac:(lia) ltac:(lia) ltac:(lia)). rewrite !aD in P1. replace (k + (i - k)) with i in P1 by lia. replace (k + (j - k)) with j in P1 by lia. exact P1.
        + intros a X Y0 Z. rewrite G7, P3, G5, G4, G3, G2; auto. nia.
    Qed.
  End R.

  Lemma sblk_wp : forall m ce ne, 0 < lb -> n * lb <= w ->
    wp (if lo then blk_invpsd_lower K E A (armas_make ne 1 ne W) lb ce else blk_invpsd_upper K E A (armas_make ne 1 ne W) lb ce) L m
      (fun s m' => sres A m 0 ce s /\ sfr A W w m 0 m').
  Proof.
    intros m ce ne Hlb0 Hw. pose proof EO as (_ & _ & Hf1 & Hf2 & _). pose proof OKA as ((W1 & W2 & W3) & _). fold n in W2, Hf2.
    assert (X : wp (up_loop (e_fuel E) A lb (fun t s =>
        let y := if lo then A21 t else A12 t in
        let l := if lo then armas_make (rows (A21 t)) (cols (A11 t)) (rows (A21 t)) (W + lb) else armas_make (rows (A11 t)) (cols (A12 t)) (rows (A11 t)) (W + lb) in
        armas_mcopy l y 0 ;;
        l_mult_sym K E 0' y (opp K 1') (A22 t) l (fm lo) ;;
        l_solve_trm K E y 1' (A11 t) (sf lo) ;;
        l_solve_trm K E l 1' (A11 t) (sf lo) ;;
        u <- (if lo then unblk_invpsd_lower K E (A11 t) (armas_make lb 1 lb W) (snd s) else unblk_invpsd_upper K E (A11 t) (armas_make lb 1 lb W) (snd s)) ;;
        l_update_trm K E 1' (A11 t) (opp K 1') (if lo then y else l) (if lo then l else y) (fu lo) ;;
        ret (spd_err (fst s) u)) (subm A 0 0 n n) (0, ce)) L m (fun s m' => sres A m 0 ce s /\ sfr A W w m 0 m')).
    { apply (wp_up L A lb _ (fun k st m' => sres A m k ce st /\ sfr A W w m k m')); try lia.
      - split; [left; split; [reflexivity|intros i Hi; exfalso; fold n in Hi; lia]|]. split; [reflexivity|intros a _ _ _; reflexivity].
      - intros q s m1 Hq (HS0 & HI). cbv zeta. set (b := Z.min lb q). set (k := q - b). assert (Hb : 0 < b <= q) by (unfold b; lia).
        unfold b3at. cbn [A11 A12 A21 A22]. rewrite !Sq. fold n. replace (n - q) with (n - k - b) by (unfold k; lia).
        replace q with (k + b) in * by (unfold k; lia). assert (Hbl : b <= lb) by (unfold b; lia). clearbody k b. set (r := n - k - b).
        change (if lo then subm A (k + b) k r b else subm A k (k + b) b r) with (yb lo A k b r). cbn [rows cols armas_submatrix_unsafe armas_make].
        change (if lo then armas_make r b r (W + lb) else armas_make b r b (W + lb)) with (lwb lo W lb b r).
        assert (Hr : k + b + r = n) by (unfold r; lia). assert (Hr0 : 0 <= r) by (unfold r; lia). clearbody r.
        apply (sbround k b r ltac:(lia) ltac:(lia) Hr0 Hr Hbl ltac:(nia) m m1 s ce); auto.
      - auto. }
    unfold blk_invpsd_lower, blk_invpsd_upper.
    replace (ATL (mat_partition_2x2 A 0 0 PBottom)) with (subm A 0 0 n n) by (unfold mat_partition_2x2; cbn [ATL]; rewrite ?Z.sub_0_r, Sq; reflexivity).
    unfold fm, sf, fu in X. destruct lo; exact X.
  Qed.
  End B.
End P.
