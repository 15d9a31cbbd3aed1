(* PInvSpdB.v: the inverse of a positive definite matrix, one block of columns at a time. *)
From Coq Require Import ZArith Lia Bool ZifyBool Ring Field.
From Verif Require Import Mem MView SpecView PView PSub Hoare MFlags MBase MCopy PUpd PCopy
  MNum SpecNum MBlas1 PSum PBlas1 MElem PElem MBlas2 PMvec PBlas2 MSym PSym PFrame SpecTrm MTrm PTrm MGemm PGemm PMatcpy PMult
  MTrsm PTrsm MSymm PSymm MUpdTrm PUpdTrm MLap PLap MQr MQrMul PQrMul MInv PInvM PInv MLuInv PLuInv PLuInvB MInvSpd PInvSpdM PInvSpd
  Properties_Copy Properties_Blas1 Properties_Sym Properties_Gemm Properties_Trm Properties_Trsm Properties_Symm Properties_UpdTrm Properties_Chol.
Local Open Scope Z_scope.
Local Open Scope prog_scope.
Ltac lia := nobool; zlia.

Section P.
  Context {T : Type} (K : num T).
  Hypotheses (HF : is_field K) (HE : eqb_ok K).
  Let HR : is_ring K := Field_theory.F_R HF.
  Let HR' : ring_theory (zero K) (one K) (add K) (mul K) (sub K) (opp K) eq := HR.
  Add Ring KringSB : HR'.
  Local Notation "a +' b" := (add K a b) (at level 50, left associativity).
  Local Notation "a -' b" := (sub K a b) (at level 50, left associativity).
  Local Notation "a *' b" := (mul K a b) (at level 40, left associativity).
  Local Notation "0'" := (zero K).
  Local Notation "1'" := (one K).
  Local Notation dlt := (dlt K).

  Variables (E : lenv) (L : Z -> bool) (cb : cbuf).
  Variables (lo : bool) (A : view) (W w lb : Z).
  Hypotheses (EO : env_ok E L cb A) (OKA : mok L A) (Sq : rows A = cols A) (Hlb : 0 <= lb).
  Let n := cols A.
  Hypotheses (HW : forall a, W <= a < W + w -> L a = true /\ ~ cell A a /\ ~ inbuf cb (e_p E) a).
  Local Notation chs := (armas_cache_setup2 cb (e_mb E) (e_nb E) (e_kb E) (e_p E)).
  Local Notation bok := (buf_ok L cb (e_mb E) (e_nb E) (e_kb E) (e_p E)).
  Hypotheses (HS : symm_blocks (negb lo) A chs) (HU : lo = false -> upper_ok E cb A).
  Local Notation V := (armas_submatrix_unsafe A).
  Local Notation "m .[ i , j ]" := (elt m A i j) (at level 1, format "m .[ i ,  j ]").
  Local Notation outb := (outb cb (e_p E)).
  Local Notation acc := (acc lo A).
  Local Notation sx := (sx lo A).
  Local Notation lf := (lf K lo A).

  (* element of a block, or of its transpose when A is upper triangular *)
  Definition te (m : Z -> T) (X : view) (i j : Z) : T := if lo then elt m X i j else elt m X j i.
  Definition yb (k b r : Z) : view := if lo then V (k + b) k r b else V k (k + b) b r.
  Definition lwb (b r : Z) : view := if lo then armas_make r b r (W + lb) else armas_make b r b (W + lb).
  Definition shp (X : view) (b r : Z) : Prop := if lo then rows X = r /\ cols X = b else rows X = b /\ cols X = r.

  Lemma PP : forall i j, 0 <= i < n -> 0 <= j < n -> pos A i j.
  Proof. intros; split; [rewrite Sq|]; fold n; lia. Qed.
  Lemma sx_sym' : forall (m : Z -> T) i j, sx m i j = sx m j i.
  Proof. intros m i j. unfold PInvSpd.sx. rewrite (Z.max_comm i), (Z.min_comm i). reflexivity. Qed.

  Section B.
    Variables (k b r : Z).
    Hypotheses (Hk : 0 <= k) (Hb : 0 < b) (Hr : 0 <= r) (Hn : k + b + r = n) (Hbl : b <= lb) (Hw : lb + r * b <= w).
    Local Notation Y := (yb k b r).
    Local Notation LW := (lwb b r).
    Local Notation D := (V k k b b).
    Local Notation A2 := (V (k + b) (k + b) r r).

    Lemma ID : inA A k k b b. Proof. unfold inA. rewrite Sq. fold n. lia. Qed.
    Lemma I2 : inA A (k + b) (k + b) r r. Proof. unfold inA. rewrite Sq. fold n. lia. Qed.
    Lemma IY : if lo then inA A (k + b) k r b else inA A k (k + b) b r.
    Proof. destruct lo; unfold inA; rewrite Sq; fold n; lia. Qed.
    Lemma Y_ok : mok L Y.
    Proof. pose proof IY as I. unfold yb. destruct lo; apply (V_ok L A OKA); exact I. Qed.
    Lemma Y_in : forall a, cell Y a -> cell A a.
    Proof. intros a. pose proof IY as I. unfold yb. destruct lo; apply (V_in L A OKA); exact I. Qed.
    Lemma Y_shp : shp Y b r.
    Proof. unfold shp, yb. destruct lo; split; reflexivity. Qed.
    Lemma LW_shp : shp LW b r.
    Proof. unfold shp, lwb. destruct lo; split; reflexivity. Qed.
    Lemma LW_cell : forall a, cell LW a -> W + lb <= a < W + w.
    Proof. intros a (i & j & (Hi & Hj) & ->). unfold lwb in *. destruct lo; cbn [rows cols elems step armas_make] in *; nia. Qed.
    Lemma LW_in : forall a, cell LW a -> L a = true /\ ~ cell A a /\ ~ inbuf cb (e_p E) a.
    Proof. intros a Ha. apply LW_cell in Ha. apply HW. lia. Qed.
    Lemma LW_ok : mok L LW.
    Proof. split; [|intros a Ha; apply LW_in; exact Ha]. unfold lwb. destruct lo; repeat split; cbn [rows cols step armas_make]; lia. Qed.
    Lemma D_ok : mok L D. Proof. apply (V_ok L A OKA), ID. Qed.
    Lemma A2_ok : mok L A2. Proof. apply (V_ok L A OKA), I2. Qed.
    Lemma D_in : forall a, cell D a -> cell A a. Proof. intros a. apply (V_in L A OKA), ID. Qed.
    Lemma A2_in : forall a, cell A2 a -> cell A a. Proof. intros a. apply (V_in L A OKA), I2. Qed.
    Lemma YD : disjoint Y D.
    Proof. pose proof IY as I. unfold yb. destruct lo; apply (V_disj L); auto; try apply ID; lia. Qed.
    Lemma YA2 : disjoint Y A2.
    Proof. pose proof IY as I. unfold yb. destruct lo; apply (V_disj L); auto; try apply I2; lia. Qed.
    Lemma AL : forall X, (forall a, cell X a -> cell A a) -> disjoint X LW.
    Proof. intros X HX a Ha Hc. apply LW_in in Hc. apply HX in Ha. tauto. Qed.
    Lemma LA : forall X, (forall a, cell X a -> cell A a) -> disjoint LW X.
    Proof. intros X HX. apply disj_sym. apply AL. exact HX. Qed.
    Lemma BOK : forall X1 X2 X3, (forall a, cell X1 a \/ cell X2 a \/ cell X3 a -> cell A a \/ cell LW a) -> bok X1 X2 X3.
    Proof.
      intros X1 X2 X3 HX. destruct EO as (_ & _ & _ & _ & _ & B1 & B2 & B3 & B4 & B5 & B6 & B7 & B8 & B9 & B10 & B11).
      repeat (split; [assumption|]). split; [|exact B11].
      intros a Ha. destruct (B10 a Ha) as (C1 & C2 & _). split; [exact C1|].
      assert (N : ~ (cell X1 a \/ cell X2 a \/ cell X3 a)); [|tauto].
      intros C. apply HX in C. destruct C as [C|C]; [tauto|]. apply LW_in in C. tauto.
    Qed.

    Lemma te_Y : forall (m : Z -> T) i j, te m Y i j = acc m (k + b + i) (k + j).
    Proof. intros m i j. unfold te, yb, PInvSpd.acc. destruct lo; apply V_elt. Qed.

    (* what a write to the block or to the workspace leaves alone *)
    Lemma fr_Y : forall (m m' : Z -> T), outb Y m m' ->
      (forall i j, 0 <= i < n -> 0 <= j < n -> ~ (k <= j < k + b /\ k + b <= i) -> acc m' i j = acc m i j) /\ (forall a, ~ cell A a -> ~ inbuf cb (e_p E) a -> m' a = m a).
    Proof.
      intros m m' H. split; [|intros a X Z; apply H; auto; intros C; apply X, Y_in, C].
      intros i j Hi Hj Hne. pose proof IY as I. unfold yb, PInvSpd.acc in *. destruct lo.
      - apply (blk_frame E L cb A EO OKA) in H; auto. destruct H as (H & _). apply H; [apply PP; auto|unfold inb; lia].
      - apply (blk_frame E L cb A EO OKA) in H; auto. destruct H as (H & _). apply H; [apply PP; auto|unfold inb; lia].
    Qed.
    Lemma fr_D : forall (m m' : Z -> T), outb D m m' ->
      (forall i j, 0 <= i < n -> 0 <= j < n -> ~ (k <= j < k + b /\ k <= i < k + b) -> acc m' i j = acc m i j) /\ (forall a, ~ cell A a -> ~ inbuf cb (e_p E) a -> m' a = m a).
    Proof.
      intros m m' H. apply (blk_frame E L cb A EO OKA) in H; [|apply ID]. destruct H as (H1 & H2). split; [|exact H2].
      intros i j Hi Hj Hne. unfold PInvSpd.acc. destruct lo; (apply H1; [apply PP; auto|unfold inb; lia]).
    Qed.
    Lemma fr_L : forall (m m' : Z -> T), outb LW m m' ->
      (forall i j, 0 <= i < n -> 0 <= j < n -> acc m' i j = acc m i j) /\ (forall a, ~ W <= a < W + w -> ~ inbuf cb (e_p E) a -> m' a = m a).
    Proof.
      intros m m' H. split.
      - assert (X : forall i j, 0 <= i < n -> 0 <= j < n -> m'.[i, j] = m.[i, j]).
        { intros i j Hi Hj. assert (C : cell A (elems A + j * step A + i)) by (exists i, j; split; [apply PP; auto|reflexivity]).
          apply H; [intros C'; apply LW_in in C'; tauto|apply (not_buf E L cb A EO); exact C]. }
        intros i j Hi Hj. unfold PInvSpd.acc. destruct lo; apply X; auto.
      - intros a X Z. apply H; auto. intros C. apply LW_cell in C. lia.
    Qed.
    Lemma te_fr : forall (m m' : Z -> T), (forall a, ~ cell A a -> ~ W <= a < W + lb -> ~ inbuf cb (e_p E) a -> m' a = m a) ->
      forall i j, 0 <= i < r -> 0 <= j < b -> te m' LW i j = te m LW i j.
    Proof.
      intros m m' H. assert (X : forall i j, pos LW i j -> elt m' LW i j = elt m LW i j).
      { intros i j Hp. assert (C : cell LW (elems LW + j * step LW + i)) by (exists i, j; auto). pose proof (LW_cell _ C). apply LW_in in C. apply H; try tauto. lia. }
      intros i j Hi Hj. pose proof LW_shp as S. unfold shp in S. unfold te, pos in *. destruct lo; apply X; lia.
    Qed.

    Definition sf : Z := if lo then Z.lor ARMAS_LOWER ARMAS_RIGHT else Z.lor ARMAS_LEFT ARMAS_UPPER.
    Lemma psolve : forall X m (Q : Z -> (Z -> T) -> Prop), mok L X -> disjoint X D -> bok X D D -> shp X b r ->
      (forall i, 0 <= i < b -> acc m (k + i) (k + i) <> 0') ->
      (forall m', (forall i j, 0 <= i < r -> 0 <= j < b -> vsum K b (fun q => te m' X i q *' lf m (k + q) (k + j)) = te m X i j) -> outb X m m' -> Q 0 m') ->
      wp (l_solve_trm K E X 1' D sf) L m Q.
    Proof.
      intros X m Q OX DX BX SX NZ HQ. pose proof EO as (E1 & E2 & E3 & E4 & E5 & _). rewrite Sq in E3. fold n in E3, E4.
      assert (SX' : rows X <= n /\ cols X <= n) by (unfold shp in SX; destruct lo; lia).
      apply (gsolve K HF HE E L cb X D); auto; try (cbn [rows cols armas_submatrix_unsafe armas_make]; lia).
      - apply D_ok.
      - unfold sf. destruct lo; reflexivity.
      - unfold sf. destruct lo; reflexivity.
      - unfold sf. destruct lo; repeat split; reflexivity.
      - unfold sf. destruct lo; reflexivity.
      - unfold sf, shp in *. cbn [cols armas_submatrix_unsafe armas_make]. destruct lo; apply SX.
      - right. cbn [cols armas_submatrix_unsafe armas_make]. intros i Hi. rewrite V_elt. specialize (NZ i Hi). unfold PInvSpd.acc in NZ. destruct lo; exact NZ.
      - intros m' S O. apply HQ; [|exact O]. intros i j Hi Hj. unfold sf, te, shp, PInvSpd.lf, PInvSpd.acc in *. destruct lo.
        + specialize (S i j ltac:(unfold pos; lia)).
          change (has (Z.lor ARMAS_LOWER ARMAS_RIGHT) ARMAS_RIGHT) with true in S. change (has (Z.lor ARMAS_LOWER ARMAS_RIGHT) ARMAS_UPPER) with false in S.
          change (has (Z.lor ARMAS_LOWER ARMAS_RIGHT) ARMAS_UNIT) with false in S. cbv iota in S. cbn [cols armas_submatrix_unsafe armas_make] in S.
          transitivity (1' *' elt m X i j); [|ring]. rewrite <- S. apply vsum_ext. intros q Hq. f_equal. rewrite (optri_tr K) by discriminate.
          unfold PInvM.tr, inT. rewrite V_elt. replace (k + j <=? k + q) with (j <=? q) by Lia.lia. reflexivity.
        + specialize (S j i ltac:(unfold pos; lia)).
          change (has (Z.lor ARMAS_LEFT ARMAS_UPPER) ARMAS_RIGHT) with false in S. change (has (Z.lor ARMAS_LEFT ARMAS_UPPER) ARMAS_UPPER) with true in S.
          change (has (Z.lor ARMAS_LEFT ARMAS_UPPER) ARMAS_UNIT) with false in S. cbv iota in S. cbn [cols armas_submatrix_unsafe armas_make] in S.
          transitivity (1' *' elt m X j i); [|ring]. rewrite <- S. apply vsum_ext. intros q Hq. rewrite (optri_tr K) by discriminate.
          unfold PInvM.tr, inT. rewrite V_elt. replace (k + j <=? k + q) with (j <=? q) by Lia.lia. ring.
    Qed.

    Definition fm : Z := if lo then ARMAS_LOWER else Z.lor ARMAS_RIGHT ARMAS_UPPER.
    Lemma pmsym : forall m (Q : Z -> (Z -> T) -> Prop),
      (forall m', (forall i j, 0 <= i < r -> 0 <= j < b -> te m' Y i j = opp K (vsum K r (fun p => sx m (k + b + i) (k + b + p) *' te m LW p j))) -> outb Y m m' -> Q 0 m') ->
      wp (l_mult_sym K E 0' Y (opp K 1') A2 LW fm) L m Q.
    Proof.
      intros m Q HQ. pose proof EO as (E1 & E2 & E3 & E4 & E5 & _). pose proof Y_shp as S1. pose proof LW_shp as S2. unfold l_mult_sym. rewrite E5.
      destruct Y_ok as (WY & LY). destruct A2_ok as (WA & LA2). destruct LW_ok as (WL & LL).
      destruct (C84_mult_sym_partial T K HR HE cb (e_mb E) (e_nb E) (e_kb E) (e_p E) L m 0' Y (opp K 1') A2 LW fm) as (m' & R1 & R2 & R3); auto.
      - unfold fm. destruct lo; reflexivity.
      - unfold fm. destruct lo; reflexivity.
      - unfold fm. destruct lo; split; reflexivity.
      - intros a (i & j & Hp & _ & Hc). apply LA2. exists i, j. auto.
      - apply YA2.
      - apply AL, Y_in.
      - split; [reflexivity|]. unfold fm, shp in *. destruct lo; cbn [rows cols armas_submatrix_unsafe armas_make]; unfold oprows, opcols; cbn; lia.
      - apply BOK. intros a [X|[X|X]]; [left; apply Y_in, X|left; apply A2_in, X|right; exact X].
      - assert (A1 : rows A = n) by exact Sq. assert (A1' : cols A = n) by reflexivity. clear - HS S1 A1 A1' Hn Hk Hb Hr. unfold symm_blocks, fm, shp in *. destruct lo; cbn [negb] in HS; [change (has ARMAS_LOWER ARMAS_RIGHT) with false|change (has (Z.lor ARMAS_RIGHT ARMAS_UPPER) ARMAS_RIGHT) with true]; cbv iota; Lia.lia.
      - exists 0, m'. split; [exact R1|]. apply HQ; [|exact R3]. intros i j Hi Hj. unfold fm, te, shp in *. destruct lo.
        + specialize (R2 i j ltac:(unfold pos; lia)). rewrite R2. cbn [rows armas_submatrix_unsafe armas_make].
          change (has ARMAS_LOWER ARMAS_RIGHT) with false. change (has ARMAS_LOWER ARMAS_UPPER) with false. change (has ARMAS_LOWER ARMAS_UNIT) with false. change (has ARMAS_LOWER ARMAS_TRANSB) with false. cbv iota.
          rewrite (vsum_ext K r _ (fun p => PInvSpd.sx true A m (k + b + i) (k + b + p) *' elt m (lwb b r) p j)); [ring|].
          intros q Hq. f_equal. unfold symat, sym, PInvSpd.sx, PInvSpd.acc. rewrite !V_elt.
          destruct (q <=? i) eqn:X; [rewrite Z.max_l, Z.min_r by Lia.lia|rewrite Z.max_r, Z.min_l by Lia.lia]; rewrite ?andb_false_l, ?andb_false_r; reflexivity.
        + specialize (R2 j i ltac:(unfold pos; lia)). rewrite R2. cbn [rows armas_submatrix_unsafe armas_make].
          change (has (Z.lor ARMAS_RIGHT ARMAS_UPPER) ARMAS_RIGHT) with true. change (has (Z.lor ARMAS_RIGHT ARMAS_UPPER) ARMAS_UPPER) with true.
          change (has (Z.lor ARMAS_RIGHT ARMAS_UPPER) ARMAS_UNIT) with false. change (has (Z.lor ARMAS_RIGHT ARMAS_UPPER) ARMAS_TRANSB) with false. cbv iota.
          rewrite (vsum_ext K r _ (fun p => PInvSpd.sx false A m (k + b + i) (k + b + p) *' elt m (lwb b r) j p)); [ring|].
          intros q Hq. rewrite (Rmul_comm HR'). f_equal. unfold symat, sym, PInvSpd.sx, PInvSpd.acc. rewrite !V_elt.
          destruct (q <=? i) eqn:X; [rewrite Z.max_l, Z.min_r by Lia.lia|rewrite Z.max_r, Z.min_l by Lia.lia]; rewrite ?andb_false_l, ?andb_false_r; reflexivity.
    Qed.

    Definition fu : Z := if lo then Z.lor ARMAS_TRANSA ARMAS_LOWER else Z.lor ARMAS_UPPER ARMAS_TRANSB.
    Lemma pupd : forall m (Q : Z -> (Z -> T) -> Prop),
      (forall m', (forall i j, 0 <= i < b -> 0 <= j < b -> acc m' (k + i) (k + j) =
            if j <=? i then acc m (k + i) (k + j) -' vsum K r (fun p => te m Y p i *' te m LW p j) else acc m (k + i) (k + j)) -> outb D m m' -> Q 0 m') ->
      wp (l_update_trm K E 1' D (opp K 1') (if lo then Y else LW) (if lo then LW else Y) fu) L m Q.
    Proof.
      intros m Q HQ. pose proof EO as (E1 & E2 & E3 & E4 & E5 & _). rewrite Sq in E3. fold n in E3, E4. pose proof Y_shp as S1. pose proof LW_shp as S2. unfold l_update_trm. rewrite E5.
      destruct Y_ok as (WY & LY). destruct D_ok as (WD & LD). destruct LW_ok as (WL & LL).
      destruct (Z.eq_dec r 0) as [Z0|Z0].
      { exists 0, m. split.
        - unfold armas_update_trm. replace ((armas_size D =? 0) || (armas_size (if lo then Y else LW) =? 0) || (armas_size (if lo then LW else Y) =? 0)) with true; [reflexivity|].
          unfold armas_size, shp in *. symmetry. apply orb_true_iff. left. apply orb_true_iff. right. apply Z.eqb_eq. destruct lo; nia.
        - apply HQ; [|intros a _ _; reflexivity]. intros i j Hi Hj. rewrite (vsum_0 K) by lia. destruct (j <=? i); [ring|reflexivity]. }
      assert (D1 : disjoint D Y) by apply disj_sym, YD. assert (D2 : disjoint D LW) by apply AL, D_in.
      assert (B1 : bok D Y LW) by (apply BOK; intros a [X|[X|X]]; [left; apply D_in, X|left; apply Y_in, X|right; exact X]).
      assert (B2 : bok D LW Y) by (apply BOK; intros a [X|[X|X]]; [left; apply D_in, X|right; exact X|left; apply Y_in, X]).
      apply (update_trm_wp K HR HE); auto; try (cbn [rows cols armas_submatrix_unsafe armas_make]; lia).
      1,2: destruct lo; assumption. 1,2: destruct lo; assumption.
      1,2: destruct lo; assumption.
      - unfold upd_shapes, shp, fu in *. destruct lo; unfold oprows, opcols; cbn [rows cols armas_submatrix_unsafe armas_make]; cbn; lia.
      - unfold shp, fu in *. destruct lo; unfold opcols; cbn; lia.
      - destruct (has (e_opt E) ARMAS_ONAIVE) eqn:EN; [left; reflexivity|right]. split; [unfold fu; destruct lo; repeat split; reflexivity|]. split; [exact E2|].
        exists cb. split; [reflexivity|]. split.
        + destruct lo; assumption.
        + unfold fu. destruct lo eqn:El; [discriminate|]. intros _. specialize (HU eq_refl EN). fold n in HU. destruct (e_opt E =? ARMAS_ORECURSIVE); [|exact HU].
          cbn [rows cols armas_submatrix_unsafe armas_make]. rewrite Z.min_id. exists 0, b. cbn. lia.
      - intros m' R2 R3. apply HQ.
        + intros i j Hi Hj. unfold fu, te, shp, PInvSpd.acc in *. destruct lo.
          * specialize (R2 i j ltac:(unfold pos; cbn [rows cols armas_submatrix_unsafe armas_make]; lia)). rewrite !V_elt in R2. rewrite R2.
            change (has (Z.lor ARMAS_TRANSA ARMAS_LOWER) ARMAS_UPPER) with false. change (has (Z.lor ARMAS_TRANSA ARMAS_LOWER) ARMAS_TRANSA) with true. change (has (Z.lor ARMAS_TRANSA ARMAS_LOWER) ARMAS_TRANSB) with false.
            cbv iota. unfold opcols, opelt. destruct S1 as (-> & _). destruct (j <=? i); [ring|reflexivity].
          * specialize (R2 j i ltac:(unfold pos; cbn [rows cols armas_submatrix_unsafe armas_make]; lia)). rewrite !V_elt in R2. rewrite R2.
            change (has (Z.lor ARMAS_UPPER ARMAS_TRANSB) ARMAS_UPPER) with true. change (has (Z.lor ARMAS_UPPER ARMAS_TRANSB) ARMAS_TRANSA) with false. change (has (Z.lor ARMAS_UPPER ARMAS_TRANSB) ARMAS_TRANSB) with true.
            cbv iota. unfold opcols, opelt. destruct S2 as (_ & ->). destruct (j <=? i); [|reflexivity].
            rewrite (vsum_ext K r _ (fun p => elt m Y i p *' elt m LW j p)) by (intros; ring). ring.
        + intros a Ha Hb'. apply R3; auto. intros c _ Ec. injection Ec as <-. exact Hb'.
    Qed.

    Lemma psave : forall m (Q : Z -> (Z -> T) -> Prop),
      (forall m', (forall i j, 0 <= i < r -> 0 <= j < b -> te m' LW i j = acc m (k + b + i) (k + j)) -> outb LW m m' -> Q 0 m') ->
      wp (armas_mcopy LW Y 0) L m Q.
    Proof.
      intros m Q HQ. pose proof Y_shp as S1. pose proof LW_shp as S2. destruct Y_ok as (WY & LY). destruct LW_ok as (WL & LL). pose proof (LA Y Y_in) as DY.
      destruct (C06_mcopy T L m LW Y 0) as (m' & R1 & R2 & R3); auto.
      1,2: clear - S1 S2; unfold shp in *; destruct lo; cbn; Lia.lia.
      exists 0, m'. split; [exact R1|]. apply HQ; [|intros a Ha _; apply R3, Ha].
      intros i j Hi Hj. rewrite <- te_Y. unfold te, shp in *. destruct lo; apply R2; unfold pos; lia.
    Qed.

    (* one round *)
    Lemma pbround : forall R (f : Z * Z -> M T R) m m1 ce (Q : R -> (Z -> T) -> Prop),
      (forall i, 0 <= i < n -> m.[i, i] <> 0') -> pinv K E cb lo A W w m (k + b) m1 ->
      (forall m', pinv K E cb lo A W w m k m' -> wp (f (0, ce)) L m' Q) ->
      wp (armas_mcopy LW Y 0 ;;
          l_mult_sym K E 0' Y (opp K 1') A2 LW fm ;;
          l_solve_trm K E Y 1' D sf ;;
          l_solve_trm K E LW 1' D sf ;;
          u <- (if lo then unblk_invpsd_lower K E D (armas_make lb 1 lb W) ce else unblk_invpsd_upper K E D (armas_make lb 1 lb W) ce) ;;
          l_update_trm K E 1' D (opp K 1') (if lo then Y else LW) (if lo then LW else Y) fu ;;
          f u) L m1 Q.
    Proof.
      intros R f m m1 ce Q NZ HI HQ. pose proof HI as (J1 & J2 & J3). fold n in J1, J2.
      assert (NZa : forall i, 0 <= i < n -> acc m i i <> 0') by (intros i Hi; specialize (NZ i Hi); unfold PInvSpd.acc; destruct lo; exact NZ).
      assert (U1 : forall i j, 0 <= i < n -> 0 <= j < k + b -> acc m1 i j = acc m i j) by (intros; apply J1; lia).
      wbind. apply psave. intros m2 A1 F2. apply fr_L in F2. destruct F2 as (F2 & G2).
      wbind. apply pmsym. intros m3 A3 F3. apply fr_Y in F3. destruct F3 as (F3 & G3).
      wbind. apply (psolve Y); [exact Y_ok|exact YD|apply BOK; intros a [X|[X|X]]; left; [apply Y_in, X|apply D_in, X|apply D_in, X]|exact Y_shp| |].
      { intros i Hi. rewrite F3, F2, U1 by lia. apply NZa. lia. }
      intros m4 A4 F4. apply fr_Y in F4. destruct F4 as (F4 & G4).
      wbind. apply (psolve LW); [exact LW_ok|apply LA, D_in|apply BOK; intros a [X|[X|X]]; [right; exact X|left; apply D_in, X|left; apply D_in, X]|exact LW_shp| |].
      { intros i Hi. rewrite F4, F3, F2, U1 by lia. apply NZa. lia. }
      intros m5 A5 F5. apply fr_L in F5. destruct F5 as (F5 & G5).
      assert (D5 : forall i j, 0 <= i < b -> 0 <= j < b -> acc m5 (k + i) (k + j) = acc m (k + i) (k + j)).
      { intros i j Hi Hj. rewrite F5, F4, F3, F2, U1 by lia. reflexivity. }
      assert (aD : forall (mm : Z -> T) i j, PInvSpd.acc lo D mm i j = acc mm (k + i) (k + j)) by (intros mm i j; unfold PInvSpd.acc; destruct lo; apply V_elt).
      wbind. eapply wp_conseq; [apply (punblk_wp K HF HE E L cb lo D W lb)|].
      { apply (V_env E L cb A EO OKA), ID. }
      { exact D_ok. }
      { reflexivity. }
      { intros a Ha. destruct (HW a ltac:(nia)) as (X1 & X2 & _). split; [exact X1|]. intros C. apply X2, D_in, C. }
      { cbn [cols armas_submatrix_unsafe armas_make]. lia. }
      { lia. }
      { cbn [cols armas_submatrix_unsafe armas_make]. intros i Hi X. rewrite V_elt in X. apply (NZa (k + i)); [lia|]. rewrite <- D5 by lia. unfold PInvSpd.acc. destruct lo; exact X. }
      intros u m6 (-> & P1 & P2 & P3). cbn [cols armas_submatrix_unsafe armas_make] in P1, P2.
      wbind. apply pupd. intros m7 A7 F7. apply fr_D in F7. destruct F7 as (F7 & G7).
      apply HQ.
      (* what is left alone *)
      assert (L0 : forall i j, 0 <= i < n -> 0 <= j < n -> ~ (k <= j < k + b /\ k <= i < k + b) -> acc m6 i j = acc m5 i j).
      { intros i j Hi Hj Hne. assert (Y0 : forall i j, 0 <= i < n -> 0 <= j < n -> ~ (k <= j < k + b /\ k <= i < k + b) -> m6.[i, j] = m5.[i, j]).
        { clear i j Hi Hj Hne. intros i j Hi Hj Hne. assert (C : cell A (elems A + j * step A + i)) by (exists i, j; split; [apply PP; auto|reflexivity]). apply P3.
          - intros C'. apply Hne. destruct ID as (Q1 & Q2 & Q3 & Q4 & Q5 & Q6). apply (subm_cell A k k b b i j) in C'; auto; [lia|apply OKA|apply PP; auto].
          - intros X. destruct (HW _ ltac:(split; [apply X|]; nia)) as (_ & Z & _). tauto.
          - apply (not_buf E L cb A EO). exact C. }
        unfold PInvSpd.acc. destruct lo; apply Y0; lia. }
      assert (O5 : forall a, ~ cell A a -> ~ W <= a < W + w -> ~ inbuf cb (e_p E) a -> m7 a = m1 a).
      { intros a X Y0 Z. rewrite G7, P3, G5, G4, G3, G2; auto. - intros C. apply X, D_in, C. - nia. }
      assert (C5 : forall a, ~ cell A a -> ~ W <= a < W + lb -> ~ inbuf cb (e_p E) a -> m6 a = m5 a).
      { intros a X Y0 Z. apply P3; auto. intros C. apply X, D_in, C. }
      assert (T6 : forall i j, 0 <= i < r -> 0 <= j < b -> te m6 LW i j = te m5 LW i j) by (apply te_fr; exact C5).
      assert (T4 : forall i j, 0 <= i < r -> 0 <= j < b -> te m4 LW i j = acc m (k + b + i) (k + j)).
      { intros i j Hi Hj. rewrite <- (U1 (k + b + i)) by lia. rewrite <- A1 by lia. apply te_fr; auto. intros a X _ Z. rewrite G4, G3; auto. }
      assert (Y7 : forall i j, 0 <= i < r -> 0 <= j < b -> acc m7 (k + b + i) (k + j) = te m4 Y i j).
      { intros i j Hi Hj. rewrite te_Y. rewrite F7, L0, F5 by lia. reflexivity. }
      assert (X22 : forall i j, 0 <= i < r -> 0 <= j < r -> sx m7 (k + b + i) (k + b + j) = sx m2 (k + b + i) (k + b + j)).
      { intros i j Hi Hj. unfold PInvSpd.sx. rewrite F7, L0, F5, F4, F3 by lia. reflexivity. }
      assert (lfa : forall i j, j <= i -> lf m i j = acc m i j) by (intros i j Hij; unfold PInvSpd.lf; replace (j <=? i) with true by Lia.lia; reflexivity).
      assert (lfe : forall (mm : Z -> T), (forall i j, 0 <= i < b -> 0 <= j < b -> acc mm (k + i) (k + j) = acc m (k + i) (k + j)) -> forall i j, 0 <= i < b -> 0 <= j < b -> lf mm (k + i) (k + j) = lf m (k + i) (k + j)).
      { intros mm H i j Hi Hj. unfold PInvSpd.lf. rewrite H by auto. reflexivity. }
      assert (SB := spd_blk K HF b r (fun i j => sx m7 (k + i) (k + j)) (fun i j => lf m (k + i) (k + j)) (te m5 LW) (fun i j => sx m6 (k + i) (k + j))).
      destruct SB as (S1 & S2); try lia.
      - intros i j. apply sx_sym'.
      - intros i j Hij. unfold PInvSpd.lf. replace (k + j <=? k + i) with false by Lia.lia. reflexivity.
      - intros i Hi. rewrite lfa by lia. apply NZa. lia.
      - intros i j Hi Hj.
        rewrite (vsum_ext K b _ (fun q => te m4 Y i q *' lf m3 (k + q) (k + j))).
        2:{ intros q Hq. f_equal.
            - rewrite <- Y7 by lia. unfold PInvSpd.sx. rewrite Z.max_l, Z.min_r by lia. f_equal; lia.
            - symmetry. apply lfe; auto. intros; rewrite F3, F2, U1 by lia; reflexivity. }
        rewrite A4, A3 by lia. f_equal. apply vsum_ext. intros p Hp. rewrite !Z.add_assoc. rewrite X22 by lia. f_equal. rewrite A1 by lia. rewrite U1 by lia. rewrite lfa by lia. reflexivity.
      - intros i j Hi Hj. rewrite !Z.add_assoc, lfa by lia. rewrite <- T4 by lia. rewrite <- A5 by lia. apply vsum_ext. intros q Hq. f_equal. symmetry. apply lfe; auto.
        intros; rewrite F4, F3, F2, U1 by lia; reflexivity.
      - intros i j. apply sx_sym'.
      - intros i j Hi Hj. rewrite Z.sub_0_r in P2. rewrite <- (P2 i j Hi Hj). apply vsum_ext. intros p Hp. rewrite !Z.add_0_l. f_equal.
        + unfold PInvSpd.sx. rewrite aD. f_equal; lia.
        + apply vsum_ext. intros q Hq. rewrite !Z.add_0_l.
          assert (X : forall i j, 0 <= i < b -> 0 <= j < b -> PInvSpd.lf K lo D m5 i j = lf m (k + i) (k + j)).
          { intros i' j' Hi' Hj'. unfold PInvSpd.lf. replace (k + j' <=? k + i') with (j' <=? i') by Lia.lia. rewrite aD, D5 by auto. reflexivity. }
          rewrite !X by auto. reflexivity.
      - intros i j Hi Hj. unfold PInvSpd.sx at 1 2. rewrite !(Z.max_l (k + i)), !(Z.min_r (k + i)) by lia. rewrite A7 by lia. replace (j <=? i) with true by Lia.lia. f_equal.
        apply vsum_ext. intros p Hp. f_equal.
        + rewrite te_Y. unfold PInvSpd.sx. rewrite Z.max_l, Z.min_r by lia. rewrite F7 by lia. f_equal; lia.
        + apply T6; lia.
      - replace r with (n - k - b) in S1, S2 by lia.
        apply (pstep K HF E cb lo A W w m k b m1 m7); auto; try lia.
        intros i j Hi Hj Hne. destruct (Z_lt_ge_dec i (k + b)) as [C1|C1]; [destruct (Z_le_gt_dec k j) as [C2|C2]; [destruct (Z_lt_ge_dec j (k + b)) as [C3|C3]; [destruct (Z_le_gt_dec k i) as [C4|C4]|]|]|].
        all: try (rewrite F7, L0, F5, F4, F3, F2 by lia; reflexivity).
        specialize (A7 (i - k) (j - k) ltac:(lia) ltac:(lia)). replace (k + (i - k)) with i in A7 by lia. replace (k + (j - k)) with j in A7 by lia. rewrite A7.
        replace (j - k <=? i - k) with false by Lia.lia.
        specialize (P1 (i - k) (j - k) ltac:(lia) ltac:(lia) ltac:(lia)). rewrite !aD in P1. replace (k + (i - k)) with i in P1 by lia. replace (k + (j - k)) with j in P1 by lia. rewrite P1.
        rewrite F5, F4, F3, F2 by lia. reflexivity.
    Qed.
  End B.

  Lemma pblk_wp : forall m ce ne, 0 < lb -> n * lb <= w -> (forall i, 0 <= i < n -> m.[i, i] <> 0') ->
    wp (if lo then blk_invpsd_lower K E A (armas_make ne 1 ne W) lb ce else blk_invpsd_upper K E A (armas_make ne 1 ne W) lb ce) L m
      (fun s m' => s = (0, ce) /\ pinv K E cb lo A W w m 0 m').
  Proof.
    intros m ce ne Hlb0 Hw NZ. pose proof EO as (_ & _ & Hf1 & Hf2 & _). pose proof OKA as ((W1 & W2 & W3) & _). fold n in W2, Hf2.
    assert (X : wp (up_loop (e_fuel E) A lb (fun t s =>
        let y := if lo then A21 t else A12 t in
        let l := if lo then armas_make (rows (A21 t)) (cols (A11 t)) (rows (A21 t)) (W + lb) else armas_make (rows (A11 t)) (cols (A12 t)) (rows (A11 t)) (W + lb) in
        armas_mcopy l y 0 ;;
        l_mult_sym K E 0' y (opp K 1') (A22 t) l fm ;;
        l_solve_trm K E y 1' (A11 t) sf ;;
        l_solve_trm K E l 1' (A11 t) sf ;;
        u <- (if lo then unblk_invpsd_lower K E (A11 t) (armas_make lb 1 lb W) (snd s) else unblk_invpsd_upper K E (A11 t) (armas_make lb 1 lb W) (snd s)) ;;
        l_update_trm K E 1' (A11 t) (opp K 1') (if lo then y else l) (if lo then l else y) fu ;;
        ret (spd_err (fst s) u)) (subm A 0 0 n n) (0, ce)) L m (fun s m' => s = (0, ce) /\ pinv K E cb lo A W w m 0 m')).
    { apply (wp_up L A lb _ (fun k st m' => st = (0, ce) /\ pinv K E cb lo A W w m k m')); try lia.
      - split; [reflexivity|apply pinv_n].
      - intros q s m1 Hq (-> & HI). cbv zeta. set (b := Z.min lb q). set (k := q - b). assert (Hb : 0 < b <= q) by (unfold b; lia).
        unfold b3at. cbn [A11 A12 A21 A22]. rewrite !Sq. fold n. replace (n - q) with (n - k - b) by (unfold k; lia).
        replace q with (k + b) in * by (unfold k; lia). assert (Hbl : b <= lb) by (unfold b; lia). clearbody k b. set (r := n - k - b). 
        change (if lo then subm A (k + b) k r b else subm A k (k + b) b r) with (yb k b r). cbn [rows cols armas_submatrix_unsafe armas_make snd fst].
        change (if lo then armas_make r b r (W + lb) else armas_make b r b (W + lb)) with (lwb b r).
        assert (Hr : k + b + r = n) by (unfold r; lia). assert (Hr0 : 0 <= r) by (unfold r; lia). clearbody r.
        apply (pbround k b r ltac:(lia) ltac:(lia) Hr0 Hr Hbl ltac:(nia) _ (fun u => ret (spd_err 0 u)) m m1 ce); auto.
        intros m' HI'. apply wp_ret. split; [reflexivity|exact HI'].
      - auto. }
    unfold blk_invpsd_lower, blk_invpsd_upper.
    replace (ATL (mat_partition_2x2 A 0 0 PBottom)) with (subm A 0 0 n n) by (unfold mat_partition_2x2; cbn [ATL]; rewrite ?Z.sub_0_r, Sq; reflexivity).
    unfold fm, sf, fu in X. destruct lo; exact X.
  Qed.
End P.
