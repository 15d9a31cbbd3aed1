(* PLuInvB.v: the inverse of a general matrix, one block of columns at a time. *)
From Coq Require Import ZArith Lia Bool ZifyBool Ring Field.
From Verif Require Import Mem MView SpecView PView PSub Hoare MFlags MBase MCopy PUpd PCopy
  MNum SpecNum MBlas1 PSum PBlas1 MElem PElem MBlas2 PMvec PBlas2 PSym PFrame SpecTrm MTrm PTrm MGemm PGemm PMatcpy PMult
  MTrsm PTrsm MTrmm PTrmm MLap PLap MQr MQrMul PQrMul MInv PInvM PInv MLuInv PLuInv
  Properties_Copy Properties_Blas1 Properties_Elem Properties_Blas2 Properties_Gemm Properties_Trm Properties_Trsm Properties_Trmm Properties_Inv.
Local Open Scope Z_scope.
Local Open Scope prog_scope.
Ltac lia := nobool; zlia.

Section P.
  Context {T : Type} (K : num T).
  Hypotheses (HF : is_field K) (HE : eqb_ok K).
  Let HR : is_ring K := Field_theory.F_R HF.
  Let HR' : ring_theory (zero K) (one K) (add K) (mul K) (sub K) (opp K) eq := HR.
  Add Ring KringLB : HR'.
  Local Notation "a +' b" := (add K a b) (at level 50, left associativity).
  Local Notation "a -' b" := (sub K a b) (at level 50, left associativity).
  Local Notation "a *' b" := (mul K a b) (at level 40, left associativity).
  Local Notation "0'" := (zero K).
  Local Notation "1'" := (one K).
  Local Notation tr := (tr K).
  Local Notation dlt := (dlt K).

  Variables (E : lenv) (L : Z -> bool) (cb : cbuf).
  Local Notation bok := (buf_ok L cb (e_mb E) (e_nb E) (e_kb E) (e_p E)).
  Local Notation chs := (armas_cache_setup2 cb (e_mb E) (e_nb E) (e_kb E) (e_p E)).

  Section G.
    Variables (B X : view).
    Hypotheses (Hb2 : 2 <= e_b2 E) (Hcb : e_cb E = Some cb) (Hf1 : rows B < Z.of_nat (e_fuel E)) (Hf2 : cols B < Z.of_nat (e_fuel E)).
    Hypotheses (OB : mok L B) (OX : mok L X) (D : disjoint B X) (BO : bok B X X) (SX : rows X = cols X).

    Lemma outb_id : forall m : Z -> T, outb cb (e_p E) B m m.
    Proof. intros m a _ _. reflexivity. Qed.

    (* B := B*X with the upper triangle *)
    Lemma gmtrm : forall m (Q : Z -> (Z -> T) -> Prop), cols B = cols X ->
      (forall m', trm_product K true true false false m m' 1' X B -> outb cb (e_p E) B m m' -> Q 0 m') ->
      wp (l_mult_trm K E B 1' X (Z.lor ARMAS_RIGHT ARMAS_UPPER)) L m Q.
    Proof.
      intros m Q En HQ. unfold l_mult_trm. rewrite Hcb. destruct OB as (WB & LB). destruct OX as (WX & LX). pose proof WB as (B1 & B2 & _).
      destruct (Z.eq_dec (rows B) 0) as [Z1|Z1]; [|destruct (Z.eq_dec (cols B) 0) as [Z2|Z2]].
      1,2: exists 0, m; unfold armas_mult_trm, armas_size; rewrite ?Z1, ?Z2, ?Z.mul_0_r, ?Z.mul_0_l; split; [reflexivity|];
        apply HQ; [intros i j (Hi & Hj); exfalso; lia|apply outb_id].
      destruct (has (e_opt E) ARMAS_ONAIVE) eqn:En1.
      - destruct (C78_mult_trm_naive T K HR HE (e_fuel E) (e_b2 E) (e_opt E) (Some cb) (e_mb E) (e_nb E) (e_kb E) (e_p E) L m B 1' X (Z.lor ARMAS_RIGHT ARMAS_UPPER))
          as (m' & X1 & X2 & X3); auto.
        exists 0, m'. split; [exact X1|]. apply HQ; [exact X2|]. intros a Ha _. apply X3, Ha.
      - destruct (C78_mult_trm_partial T K HR HE (e_fuel E) (e_b2 E) (e_opt E) cb (e_mb E) (e_nb E) (e_kb E) (e_p E) L m B 1' X (Z.lor ARMAS_RIGHT ARMAS_UPPER))
          as (m' & X1 & X2 & X3); auto; try lia.
        exists 0, m'. split; [exact X1|]. apply HQ; auto.
    Qed.

    (* solving with one triangle *)
    Lemma gsolve : forall flags alpha m (Q : Z -> (Z -> T) -> Prop),
      has flags ARMAS_LOWER = negb (has flags ARMAS_UPPER) -> has flags ARMAS_LEFT && has flags ARMAS_RIGHT = false -> plain_flags flags ->
      has flags ARMAS_TRANSA = false -> trm_dim (has flags ARMAS_RIGHT) B = cols X ->
      has flags ARMAS_UNIT = true \/ (forall i, 0 <= i < cols X -> elt m X i i <> 0') ->
      has (e_opt E) ARMAS_ONAIVE = true \/ alpha = 1' \/ (if has (e_opt E) ARMAS_ORECURSIVE then cols X < e_b2 E else Z.min (NB chs) (cols X) < e_b2 E) ->
      (forall m', solves_trm K (has flags ARMAS_RIGHT) (has flags ARMAS_UPPER) (has flags ARMAS_UNIT) false m m' alpha X B -> outb cb (e_p E) B m m' -> Q 0 m') ->
      wp (l_solve_trm K E B alpha X flags) L m Q.
    Proof.
      intros flags alpha m Q F1 F2 F3 F4 En NZ HC HQ. unfold l_solve_trm. rewrite Hcb. destruct OB as (WB & LB). destruct OX as (WX & LX). pose proof WB as (B1 & B2 & _).
      destruct (Z.eq_dec (rows B) 0) as [Z1|Z1]; [|destruct (Z.eq_dec (cols B) 0) as [Z2|Z2]].
      1,2: exists 0, m; unfold armas_solve_trm, armas_size; rewrite ?Z1, ?Z2, ?Z.mul_0_r, ?Z.mul_0_l; split; [reflexivity|];
        apply HQ; [intros i j (Hi & Hj); exfalso; lia|apply outb_id].
      destruct (has (e_opt E) ARMAS_ONAIVE) eqn:En1.
      - destruct (C65_solve_trm_naive T K HF HE (e_fuel E) (e_b2 E) (e_opt E) (Some cb) (e_mb E) (e_nb E) (e_kb E) (e_p E) L m B alpha X flags)
          as (m' & X1 & X2 & X3); auto.
        { rewrite F1. destruct (has flags ARMAS_UPPER); reflexivity. }
        rewrite F4 in X2. cbn [andb] in X2.
        exists 0, m'. split; [exact X1|]. apply HQ; [exact X2|]. intros a Ha _. apply X3, Ha.
      - destruct HC as [HC|HC]; [discriminate|].
        destruct (C65_solve_trm_partial T K HF HE (e_fuel E) (e_b2 E) (e_opt E) cb (e_mb E) (e_nb E) (e_kb E) (e_p E) L m B alpha X flags)
          as (m' & X1 & X2 & X3); auto; try lia.
        rewrite F4 in X2. exists 0, m'. split; [exact X1|]. apply HQ; auto.
    Qed.
  End G.

  Variables (A : view) (W w : Z).
  Hypotheses (EO : env_ok E L cb A) (OKA : mok L A) (Sq : rows A = cols A).
  Let n := cols A.
  Hypotheses (HW : forall a, W <= a < W + w -> L a = true /\ ~ cell A a /\ ~ inbuf cb (e_p E) a).
  Local Notation V := (armas_submatrix_unsafe A).
  Local Notation "m .[ i , j ]" := (elt m A i j) (at level 1, format "m .[ i ,  j ]").
  Local Notation only := (blk_only E cb A).
  Local Notation outw := (outw E cb A W w).
  Local Notation xl := (xl K A).

  (* columns k and above are done *)
  Definition binv (m : Z -> T) (k : Z) (m' : Z -> T) : Prop :=
    (forall i j, pos A i j -> j < k -> m'.[i, j] = m.[i, j]) /\
    (forall i j, pos A i j -> k <= j -> vsum K n (fun p => tr true (elt m A) i p *' xl m m' p j) = dlt i j) /\
    outw m m'.

  Lemma binv_n : forall m, binv m n m.
  Proof. intros m. split; [reflexivity|split]. - intros i j (Hi & Hj) Hn. fold n in Hj. exfalso. lia. - intros a _ _ _. reflexivity. Qed.

  (* the unit lower triangle *)
  Definition lw (m : Z -> T) (i j : Z) : T := if i =? j then 1' else if j <? i then m.[i, j] else 0'.

  Lemma bstep : forall m k b m1 m2 (v : Z -> Z -> T), 0 <= k -> 0 <= b -> k + b <= n -> binv m (k + b) m1 ->
    (forall i j, 0 <= i < n -> 0 <= j < b -> vsum K n (fun p => tr true (elt m A) i p *' v p j) = dlt i (k + j)) ->
    (forall p j, 0 <= p < n -> 0 <= j < b -> vsum K b (fun q => m2.[p, k + q] *' lw m (k + q) (k + j)) =
       v p j -' vsum K (n - k - b) (fun q => m1.[p, k + b + q] *' m.[k + b + q, k + j])) ->
    (forall i j, pos A i j -> ~ k <= j < k + b -> m2.[i, j] = m1.[i, j]) -> outw m1 m2 -> binv m k m2.
  Proof.
    intros m k b m1 m2 v Hk Hb Hn (J1 & J2 & J3) HV HX F1 F2.
    assert (PP : forall i j, 0 <= i < n -> 0 <= j < n -> pos A i j) by (intros; split; [rewrite Sq|]; fold n; lia).
    split; [|split].
    - intros i j Hp Hj. rewrite F1 by (auto; lia). apply J1; auto. lia.
    - intros i j Hp Hj. pose proof Hp as (Hi & Hj2). fold n in Hj2. rewrite Sq in Hi. fold n in Hi.
      destruct (Z_lt_ge_dec j (k + b)) as [Hlt|Hge].
      + replace (dlt i j) with (dlt i (k + (j - k))) by (f_equal; lia). rewrite <- (HV i (j - k)) by lia. apply vsum_ext. intros p Hp'. f_equal.
        unfold PLuInv.xl. fold n. set (j' := j - k). assert (0 <= j' < b) by (unfold j'; lia). replace j with (k + j') in * by (unfold j'; lia). clearbody j'.
        transitivity (vsum K b (fun q => m2.[p, k + q] *' lw m (k + q) (k + j')) +' vsum K (n - k - b) (fun q => m1.[p, k + b + q] *' m.[k + b + q, k + j']));
          [|rewrite HX by lia; ring].
        rewrite (vsum_at K HR b j') by lia. rewrite (vsum_zero K HR j').
        2:{ intros q Hq. unfold lw. replace (k + q =? k + j') with false by Lia.lia. replace (k + j' <? k + q) with false by Lia.lia. ring. }
        unfold lw at 1. rewrite Z.eqb_refl. replace (n - 1 - (k + j')) with ((b - j' - 1) + (n - k - b)) by lia. rewrite (vsum_split K HR) by lia.
        rewrite (vsum_ext K (b - j' - 1) (fun k0 => m2.[p, k + (j' + (1 + k0))] *' lw m (k + (j' + (1 + k0))) (k + j'))
          (fun q => m2.[p, k + j' + 1 + q] *' m.[k + j' + 1 + q, k + j'])).
        2:{ intros q Hq. unfold lw. replace (k + (j' + (1 + q)) =? k + j') with false by Lia.lia. replace (k + j' <? k + (j' + (1 + q))) with true by Lia.lia.
            replace (k + (j' + (1 + q))) with (k + j' + 1 + q) by lia. reflexivity. }
        rewrite (vsum_ext K (n - k - b) (fun k0 => m2.[p, k + j' + 1 + (b - j' - 1 + k0)] *' m.[k + j' + 1 + (b - j' - 1 + k0), k + j'])
          (fun q => m1.[p, k + b + q] *' m.[k + b + q, k + j'])).
        2:{ intros q Hq. replace (k + j' + 1 + (b - j' - 1 + q)) with (k + b + q) by lia. rewrite F1; [reflexivity|apply PP; lia|lia]. }
        ring.
      + rewrite <- (J2 i j Hp ltac:(lia)). apply vsum_ext. intros p Hp'. f_equal. unfold PLuInv.xl. fold n.
        rewrite F1; [|apply PP; lia|lia]. f_equal. apply vsum_ext. intros q Hq. rewrite F1; [reflexivity|apply PP; lia|lia].
    - intros a X Y Z. rewrite F2, J3; auto.
  Qed.

  (* the columns of U^-1: c is the block above the diagonal, d the inverse of the diagonal block *)
  Lemma vcol : forall m k b (v : Z -> Z -> T), 0 <= k -> 0 <= b -> k + b <= n ->
    (forall i j, k + b <= i < n -> 0 <= j < b -> v i j = 0') ->
    (forall i j, 0 <= i < b -> 0 <= j < b -> vsum K b (fun q => tr true (fun i j => m.[k + i, k + j]) i q *' v (k + q) j) = dlt i j) ->
    (forall i j, 0 <= i < k -> 0 <= j < b -> vsum K k (fun q => tr true (elt m A) i q *' v q j) = opp K (vsum K b (fun q => m.[i, k + q] *' v (k + q) j))) ->
    forall i j, 0 <= i < n -> 0 <= j < b -> vsum K n (fun p => tr true (elt m A) i p *' v p j) = dlt i (k + j).
  Proof.
    intros m k b v Hk Hb Hn V0 V1 V2 i j Hi Hj.
    rewrite (sum_range K HF n 0 (k + b)); try lia.
    2:{ intros p Hp Ho. rewrite V0 by lia. ring. }
    rewrite (vsum_ext K (k + b) _ (fun p => tr true (elt m A) i p *' v p j)) by (intros; reflexivity).
    rewrite (vsum_split K HR) by lia.
    assert (C : i < k \/ k <= i < k + b \/ k + b <= i) by lia. destruct C as [C|[C|C]].
    - rewrite V2 by lia. rewrite (vsum_ext K b (fun q => tr true (elt m A) i (k + q) *' v (k + q) j) (fun q => m.[i, k + q] *' v (k + q) j)).
      + unfold PInvM.dlt. replace (i =? k + j) with false by Lia.lia. ring.
      + intros q Hq. unfold PInvM.tr, inT. replace (i <=? k + q) with true by Lia.lia. reflexivity.
    - rewrite (vsum_zero K HR k).
      + replace (dlt i (k + j)) with (dlt (i - k) j) by (unfold PInvM.dlt; replace (i - k =? j) with (i =? k + j) by Lia.lia; reflexivity).
        rewrite <- (V1 (i - k) j) by lia. transitivity (vsum K b (fun q => tr true (elt m A) i (k + q) *' v (k + q) j)); [ring|].
        apply vsum_ext. intros q Hq. f_equal. unfold PInvM.tr, inT. replace (i - k <=? q) with (i <=? k + q) by Lia.lia.
        replace (k + (i - k)) with i by lia. reflexivity.
      + intros q Hq. unfold PInvM.tr, inT. replace (i <=? q) with false by Lia.lia. ring.
    - unfold PInvM.dlt. replace (i =? k + j) with false by Lia.lia.
      rewrite !(vsum_zero K HR); [ring| |]; intros q Hq; unfold PInvM.tr, inT; [replace (i <=? k + q) with false by Lia.lia|replace (i <=? q) with false by Lia.lia]; ring.
  Qed.

  (* ---- the workspace ---- *)
  Local Notation LW h b := (armas_make h b h W).

  Lemma lw_cell : forall h b a, 0 <= h -> 0 <= b -> cell (LW h b) a -> W <= a < W + h * b.
  Proof. intros h b a Hh Hb (i & j & (Hi & Hj) & ->). cbn [rows cols elems step armas_make] in *. nia. Qed.
  Lemma lw_in : forall h b a, 0 <= h -> 0 <= b -> h * b <= w -> cell (LW h b) a -> L a = true /\ ~ cell A a /\ ~ inbuf cb (e_p E) a.
  Proof. intros h b a Hh Hb Hw Ha. apply lw_cell in Ha; auto. apply HW. lia. Qed.
  Lemma lw_ok : forall h b, 0 <= h -> 0 <= b -> h * b <= w -> mok L (LW h b).
  Proof.
    intros h b Hh Hb Hw. split.
    - repeat split; cbn [rows cols step armas_make]; lia.
    - intros a Ha. apply (lw_in h b a); auto.
  Qed.

  Lemma V_not_w : forall r c nr nc h b Y, inA A r c nr nc -> 0 <= h -> 0 <= b -> h * b <= w -> (forall a, cell Y a -> cell (LW h b) a) -> disjoint (V r c nr nc) Y.
  Proof. intros r c nr nc h b Y I1 Hh Hb Hw HY a Ha Hc. apply HY in Hc. apply lw_in in Hc; auto. apply (V_in L A OKA _ _ _ _ a I1) in Ha. tauto. Qed.

  Lemma w_nbuf : forall r c nr nc X h b Y, inA A r c nr nc -> (forall a, cell X a -> cell A a \/ cell (LW h b) a) -> (forall a, cell Y a -> cell (LW h b) a) ->
    0 <= h -> 0 <= b -> h * b <= w -> bok (V r c nr nc) X Y.
  Proof.
    intros r c nr nc X h b Y I1 HX HY Hh Hb Hw. destruct EO as (_ & _ & _ & _ & _ & B1 & B2 & B3 & B4 & B5 & B6 & B7 & B8 & B9 & B10 & B11).
    repeat (split; [assumption|]). split; [|exact B11].
    intros a Ha. destruct (B10 a Ha) as (C1 & C2 & _). split; [exact C1|]. split; [|split].
    - intros C. apply (V_in L A OKA _ _ _ _ a I1) in C. tauto.
    - intros C. apply HX in C. destruct C as [C|C]; [tauto|]. apply lw_in in C; auto. tauto.
    - intros C. apply HY in C. apply lw_in in C; auto. tauto.
  Qed.

  (* memory outside the workspace *)
  Definition wonly (m m' : Z -> T) : Prop := forall a, ~ W <= a < W + w -> m' a = m a.
  Lemma wonly_elt : forall (m m' : Z -> T) i j, wonly m m' -> pos A i j -> m'.[i, j] = m.[i, j].
  Proof. intros m m' i j H Hp. apply H. intros X. destruct (HW _ X) as (_ & Y & _). apply Y. exists i, j. auto. Qed.
  Lemma only_w : forall r c nr nc (m m' : Z -> T) h b i j, only r c nr nc m m' -> 0 <= h -> 0 <= b -> h * b <= w -> 0 <= i < h -> 0 <= j < b ->
    elt m' (LW h b) i j = elt m (LW h b) i j.
  Proof.
    intros r c nr nc m m' h b i j (_ & H) Hh Hb Hw Hi Hj.
    assert (C : cell (LW h b) (elems (LW h b) + j * step (LW h b) + i)) by (exists i, j; split; [split; cbn [rows cols armas_make]; lia|reflexivity]).
    apply lw_in in C; auto. apply H; tauto.
  Qed.
  Lemma only_out : forall r c nr nc (m m' : Z -> T), only r c nr nc m m' -> outw m m'.
  Proof. intros r c nr nc m m' (_ & H) a X _ Y. apply H; auto. Qed.

  Lemma saveb_wp : forall k h b m (Q : Z -> (Z -> T) -> Prop), inA A k k h b -> h * b <= w ->
    (forall m', (forall i j, 0 <= i < h -> 0 <= j < b -> elt m' (LW h b) i j = m.[k + i, k + j]) -> wonly m m' -> Q 0 m') ->
    wp (armas_mcopy (LW h b) (V k k h b) 0) L m Q.
  Proof.
    intros k h b m Q I1 Hw HQ. pose proof I1 as (H1 & H2 & H3 & H4 & H5 & H6).
    destruct (lw_ok h b) as (W1 & L1); auto. destruct (V_ok L A OKA _ _ _ _ I1) as (W2 & L2).
    destruct (C06_mcopy T L m (LW h b) (V k k h b) 0) as (m' & R1 & R2 & R3); auto.
    { apply disj_sym. apply (V_not_w k k h b h b); auto. }
    exists 0, m'. split; [exact R1|]. apply HQ.
    - intros i j Hi Hj. rewrite R2 by (split; cbn [rows cols armas_make]; lia). apply subm_elt.
    - intros a Ha. apply R3. intros C. apply Ha. apply lw_cell in C; auto. lia.
  Qed.

  Lemma zl_wp : forall k b m (Q : Z -> (Z -> T) -> Prop), inA A k k b b ->
    (forall m', (forall i j, 0 <= i < b -> 0 <= j < b -> m'.[k + i, k + j] = if i <=? j then m.[k + i, k + j] else 0') -> only k k b b m m' -> Q 0 m') ->
    wp (armas_mscale K (V k k b b) 0' (Z.lor ARMAS_LOWER ARMAS_UNIT)) L m Q.
  Proof.
    intros k b m Q I1 HQ. destruct (V_ok L A OKA _ _ _ _ I1) as (W2 & L2).
    destruct (C10_mscale_lower_partial T K L m (V k k b b) 0' (Z.lor ARMAS_LOWER ARMAS_UNIT)) as (m' & R1 & R2 & R3); auto.
    { intros _. cbn [rows cols armas_submatrix_unsafe armas_make]. lia. }
    exists 0, m'. split; [exact R1|]. apply HQ; [|apply (blk_frame E L); auto; apply outb_oc; auto].
    intros i j Hi Hj. specialize (R2 i j ltac:(split; cbn [rows cols armas_submatrix_unsafe armas_make]; lia)). rewrite !V_elt in R2. rewrite R2.
    change (selected SUL (Z.lor ARMAS_LOWER ARMAS_UNIT) i j) with (j + 1 <=? i).
    destruct (j + 1 <=? i) eqn:X; [replace (i <=? j) with false by Lia.lia; ring|replace (i <=? j) with true by Lia.lia; reflexivity].
  Qed.

  Lemma zb_wp : forall r c nr nc m (Q : Z -> (Z -> T) -> Prop), inA A r c nr nc ->
    (forall m', (forall i j, 0 <= i < nr -> 0 <= j < nc -> m'.[r + i, c + j] = 0') -> only r c nr nc m m' -> Q 0 m') ->
    wp (armas_mscale K (V r c nr nc) 0' 0) L m Q.
  Proof.
    intros r c nr nc m Q I1 HQ. destruct (V_ok L A OKA _ _ _ _ I1) as (W2 & L2).
    destruct (C10_mscale_all T K HR HE L m (V r c nr nc) 0' 0) as (m' & R1 & R2 & R3); auto; try discriminate.
    exists 0, m'. split; [exact R1|]. apply HQ; [|apply (blk_frame E L); auto; apply outb_oc; auto].
    intros i j Hi Hj. specialize (R2 i j ltac:(split; cbn [rows cols armas_submatrix_unsafe armas_make]; lia)). rewrite !V_elt in R2. rewrite R2. ring.
  Qed.

  (* A1 := A1 - A2*L21 *)
  Lemma gemm_wp : forall k h b m (Q : Z -> (Z -> T) -> Prop), 0 <= k -> 0 < b -> k + h = n -> b <= h -> h * b <= w ->
    (forall m', (forall i j, 0 <= i < n -> 0 <= j < b -> m'.[i, k + j] = m.[i, k + j] -' vsum K (h - b) (fun q => m.[i, k + b + q] *' elt m (LW h b) (b + q) j)) ->
       only 0 k n b m m' -> Q 0 m') ->
    wp (l_mult K E 1' (V 0 k n b) (opp K 1') (V 0 (k + b) n (h - b)) (armas_submatrix_unsafe (LW h b) b 0 (h - b) b) 0) L m Q.
  Proof.
    intros k h b m Q Hk Hb Hn Hbh Hw HQ.
    assert (I1 : inA A 0 k n b) by (unfold inA; rewrite Sq; fold n; lia).
    assert (I2 : inA A 0 (k + b) n (h - b)) by (unfold inA; rewrite Sq; fold n; lia).
    destruct (V_ok L A OKA _ _ _ _ I1) as (W1 & L1). destruct (V_ok L A OKA _ _ _ _ I2) as (W2 & L2).
    unfold l_mult. pose proof EO as (E1 & E2 & E3 & E4 & E5 & _). rewrite E5.
    destruct (Z.eq_dec (h - b) 0) as [Z1|Z1].
    { exists 0, m. unfold armas_mult, armas_size; cbn [rows cols armas_submatrix_unsafe armas_make]. rewrite Z1, ?Z.mul_0_r, ?Z.mul_0_l. cbn [orb Z.eqb]. split; [reflexivity|].
      apply HQ; [|apply (blk_frame E L); auto; intros a _ _; reflexivity]. intros i j Hi Hj. rewrite Z1, (vsum_0 K) by lia. ring. }
    assert (OW : mok L (LW h b)) by (apply lw_ok; lia).
    destruct (mok_sub L (LW h b) b 0 (h - b) b OW) as (W3 & L3); try (cbn [rows cols armas_make]; lia).
    assert (CS : forall a, cell (armas_submatrix_unsafe (LW h b) b 0 (h - b) b) a -> cell (LW h b) a).
    { intros a. apply subm_in; try (cbn [rows cols armas_make]; lia). apply OW. }
    destruct (C24_mult_partial T K HR HE L m cb (e_mb E) (e_nb E) (e_kb E) (e_p E) 1' (V 0 k n b) (opp K 1') (V 0 (k + b) n (h - b)) (armas_submatrix_unsafe (LW h b) b 0 (h - b) b) 0)
      as (m' & R1 & R2 & R3); auto; try (cbn; lia); try (split; reflexivity).
    - apply (V_disj L); auto. lia.
    - apply (V_not_w 0 k n b h b); auto; lia.
    - apply (w_nbuf 0 k n b _ h b); auto; try lia. intros a Ha. left. apply (V_in L A OKA _ _ _ _ a I2 Ha).
    - exists 0, m'. split; [exact R1|]. apply HQ; [|apply (blk_frame E L); auto].
      intros i j Hi Hj. specialize (R2 i j ltac:(split; cbn [rows cols armas_submatrix_unsafe armas_make]; lia)).
      change (trA 0) with false in R2. change (trB 0) with false in R2. unfold opcols, opelt in R2. cbn [cols armas_submatrix_unsafe armas_make] in R2.
      rewrite V_elt in R2. rewrite Z.add_0_l in R2. rewrite R2, V_elt, Z.add_0_l.
      rewrite (vsum_ext K (h - b) _ (fun q => m.[i, k + b + q] *' elt m (LW h b) (b + q) j)); [ring|].
      intros q Hq. rewrite V_elt. rewrite (subm_elt m (LW h b)), !Z.add_0_l. reflexivity.
  Qed.

  (* A1 := A1*L11^-1 *)
  Lemma last_wp : forall k h b m (Q : Z -> (Z -> T) -> Prop), 0 <= k -> 0 < b -> k + h = n -> b <= h -> h * b <= w ->
    (forall m', (forall i j, 0 <= i < n -> 0 <= j < b -> vsum K b (fun q => m'.[i, k + q] *' (if q =? j then 1' else if j <? q then elt m (LW h b) q j else 0')) = m.[i, k + j]) ->
       only 0 k n b m m' -> Q 0 m') ->
    wp (l_solve_trm K E (V 0 k n b) 1' (armas_submatrix_unsafe (LW h b) 0 0 b b) (Z.lor (Z.lor ARMAS_LOWER ARMAS_UNIT) ARMAS_RIGHT)) L m Q.
  Proof.
    intros k h b m Q Hk Hb Hn Hbh Hw HQ.
    assert (I1 : inA A 0 k n b) by (unfold inA; rewrite Sq; fold n; lia). pose proof EO as (E1 & E2 & E3 & E4 & E5 & _). rewrite Sq in E3.
    assert (OW : mok L (LW h b)) by (apply lw_ok; lia).
    assert (O3 : mok L (armas_submatrix_unsafe (LW h b) 0 0 b b)) by (apply mok_sub; auto; cbn [rows cols armas_make]; lia).
    assert (CS : forall a, cell (armas_submatrix_unsafe (LW h b) 0 0 b b) a -> cell (LW h b) a).
    { intros a. apply subm_in; try (cbn [rows cols armas_make]; lia). apply OW. }
    apply (gsolve (V 0 k n b) (armas_submatrix_unsafe (LW h b) 0 0 b b)); auto.
    - cbn [cols armas_submatrix_unsafe armas_make]. fold n in E4. lia.
    - apply (V_ok L A OKA); auto.
    - apply (V_not_w 0 k n b h b); auto; lia.
    - apply (w_nbuf 0 k n b _ h b); auto; lia.
    - repeat split.
    - intros m' S O. apply HQ; [|apply (blk_frame E L); auto]. intros i j Hi Hj.
      specialize (S i j ltac:(split; cbn [rows cols armas_submatrix_unsafe armas_make]; lia)).
      change (has (Z.lor (Z.lor ARMAS_LOWER ARMAS_UNIT) ARMAS_RIGHT) ARMAS_RIGHT) with true in S.
      change (has (Z.lor (Z.lor ARMAS_LOWER ARMAS_UNIT) ARMAS_RIGHT) ARMAS_UPPER) with false in S.
      change (has (Z.lor (Z.lor ARMAS_LOWER ARMAS_UNIT) ARMAS_RIGHT) ARMAS_UNIT) with true in S. cbv iota in S. cbn [cols armas_submatrix_unsafe armas_make] in S.
      rewrite V_elt, Z.add_0_l in S. transitivity (1' *' m.[i, k + j]); [|ring]. rewrite <- S. apply vsum_ext. intros q Hq. rewrite V_elt, Z.add_0_l. f_equal.
      unfold optri, tri. rewrite (subm_elt m (LW h b)), !Z.add_0_l. reflexivity.
  Qed.

  Lemma inv11_wp : forall k b ce m (Q : Z * Z -> (Z -> T) -> Prop), inA A k k b b -> 0 <= e_lb E -> b <= e_lb E ->
    (forall i, 0 <= i < b -> m.[k + i, k + i] <> 0') ->
    (forall m', (forall i j, 0 <= i < b -> 0 <= j < b ->
           vsum K b (fun q => tr true (fun i j => m.[k + i, k + j]) i q *' tr true (fun i j => m'.[k + i, k + j]) q j) = dlt i j) ->
       (forall i j, 0 <= i < b -> 0 <= j < i -> m'.[k + i, k + j] = m.[k + i, k + j]) -> only k k b b m m' -> Q (0, ce) m') ->
    wp (armas_inverse_trm K E (V k k b b) ARMAS_UPPER ce) L m Q.
  Proof.
    intros k b ce m Q I1 Hlb Hb NZ HQ. destruct (V_ok L A OKA _ _ _ _ I1) as (W1 & L1).
    destruct (C91_inverse_trm_partial T K HF HE E L cb (V k k b b) ARMAS_UPPER ce m) as (m' & R1 & R2 & R3 & R4); auto.
    - apply (V_env E L); auto.
    - repeat split.
    - discriminate.
    - intros i Hi. rewrite V_elt. apply NZ. exact Hi.
    - exists (0, ce), m'. split; [exact R1|]. apply HQ; [| |apply (blk_frame E L); auto].
      + intros i j Hi Hj. destruct (R2 i j) as (_ & X); [split; cbn [rows cols armas_submatrix_unsafe armas_make]; lia|].
        cbn [cols armas_submatrix_unsafe armas_make] in X. unfold PInvM.dlt. rewrite <- X. apply vsum_ext. intros q Hq.
        change (negb (has ARMAS_UPPER ARMAS_LOWER)) with true. rewrite !(optri_tr K) by discriminate. unfold PInvM.tr. rewrite !V_elt. reflexivity.
      + intros i j Hi Hj. specialize (R3 i j). rewrite !V_elt in R3. apply R3; [split; cbn [rows cols armas_submatrix_unsafe armas_make]; lia|].
        change (negb (has ARMAS_UPPER ARMAS_LOWER)) with true. unfold intri. lia.
  Qed.

  (* the solver with alpha = -1 is right for a triangle of up to x columns *)
  Definition solver_ok (x : Z) : Prop :=
    has (e_opt E) ARMAS_ONAIVE = true \/ (if has (e_opt E) ARMAS_ORECURSIVE then x < e_b2 E else Z.min (NB chs) x < e_b2 E).

  Lemma merge_eq : forall k b, inA A k k (n - k) b -> 0 < b <= n - k -> mat_merge2x1 (V k k b b) (V (k + b) k (n - k - b) b) = V k k (n - k) b.
  Proof.
    intros k b I1 Hb. unfold mat_merge2x1, armas_size. cbn [rows cols elems step armas_submatrix_unsafe armas_make].
    replace (b * b =? 0) with false by nia. cbn [andb]. destruct ((n - k - b) * b =? 0) eqn:X.
    - assert (n - k = b) as -> by nia. unfold armas_submatrix_unsafe, armas_make. cbn [step elems]. f_equal; lia.
    - unfold armas_submatrix_unsafe, armas_make. f_equal; lia.
  Qed.

  Lemma lround_wp : forall R (f : Z * Z -> M T R) m m1 k b ce (Q : R -> (Z -> T) -> Prop), 0 <= k -> 0 < b -> k + b <= n -> 0 <= e_lb E -> b <= e_lb E -> (n - k) * b <= w ->
    (forall i, 0 <= i < n -> m.[i, i] <> 0') -> solver_ok k -> binv m (k + b) m1 ->
    (forall m', binv m k m' -> wp (f (0, ce)) L m' Q) ->
    wp (u <- armas_inverse_trm K E (V k k b b) ARMAS_UPPER ce ;;
        l_mult_trm K E (V 0 k k b) 1' (V k k b b) (Z.lor ARMAS_RIGHT ARMAS_UPPER) ;;
        l_solve_trm K E (V 0 k k b) (opp K 1') (V 0 0 k k) (Z.lor ARMAS_LEFT ARMAS_UPPER) ;;
        armas_mcopy (LW (n - k) b) (V k k (n - k) b) 0 ;;
        armas_mscale K (V k k b b) 0' (Z.lor ARMAS_LOWER ARMAS_UNIT) ;;
        armas_mscale K (V (k + b) k (n - k - b) b) 0' 0 ;;
        l_mult K E 1' (V 0 k n b) (opp K 1') (V 0 (k + b) n (n - k - b)) (armas_submatrix_unsafe (LW (n - k) b) b 0 (n - k - b) b) 0 ;;
        l_solve_trm K E (V 0 k n b) 1' (armas_submatrix_unsafe (LW (n - k) b) 0 0 b b) (Z.lor (Z.lor ARMAS_LOWER ARMAS_UNIT) ARMAS_RIGHT) ;;
        f u) L m1 Q.
  Proof.
    intros R f m m1 k b ce Q Hk Hb Hn Hlb0 Hlb Hw NZ SO HI HQ. pose proof HI as (J1 & J2 & J3). pose proof EO as (E1 & E2 & E3 & E4 & E5 & _). rewrite Sq in E3. fold n in E3, E4.
    assert (PP : forall i j, 0 <= i < n -> 0 <= j < n -> pos A i j) by (intros; split; [rewrite Sq|]; fold n; lia).
    assert (I11 : inA A k k b b) by (unfold inA; rewrite Sq; fold n; lia).
    assert (I01 : inA A 0 k k b) by (unfold inA; rewrite Sq; fold n; lia).
    assert (I00 : inA A 0 0 k k) by (unfold inA; rewrite Sq; fold n; lia).
    assert (I21 : inA A (k + b) k (n - k - b) b) by (unfold inA; rewrite Sq; fold n; lia).
    assert (IAB : inA A k k (n - k) b) by (unfold inA; rewrite Sq; fold n; lia).
    assert (U1 : forall i j, 0 <= i < n -> 0 <= j < k + b -> m1.[i, j] = m.[i, j]) by (intros; apply J1; [apply PP|]; lia).
    wbind. apply inv11_wp; auto.
    { intros i Hi. rewrite U1 by lia. apply NZ. lia. }
    intros m2 A1 A2 (A3 & A4).
    wbind. apply (gmtrm (V 0 k k b) (V k k b b)); auto; try (cbn [rows cols armas_submatrix_unsafe armas_make]; lia).
    1,2: apply (V_ok L A OKA); auto.
    { apply (V_disj L); auto; lia. }
    { apply (V_buf E L cb A EO); intros a; apply (V_in L A OKA); auto. }
    intros m3 B1 B2. apply (blk_frame E L cb A EO OKA) in B2; auto. destruct B2 as (B2 & B3).
    wbind. apply (gsolve (V 0 k k b) (V 0 0 k k)); auto; try (cbn [rows cols armas_submatrix_unsafe armas_make]; lia).
    1,2: apply (V_ok L A OKA); auto.
    { apply (V_disj L); auto; lia. }
    { apply (V_buf E L cb A EO); intros a; apply (V_in L A OKA); auto. }
    { repeat split. }
    { right. cbn [cols armas_submatrix_unsafe armas_make]. intros i Hi. rewrite V_elt, !Z.add_0_l.
      rewrite B2; [|apply PP; lia|unfold inb; lia]. rewrite A3; [|apply PP; lia|unfold inb; lia]. rewrite U1 by lia. apply NZ. lia. }
    { cbn [cols armas_submatrix_unsafe armas_make]. destruct SO as [SO|SO]; auto. }
    intros m4 C1 C2. apply (blk_frame E L cb A EO OKA) in C2; auto. destruct C2 as (C2 & C3).
    wbind. apply saveb_wp; auto. intros m5 D1 D2.
    wbind. apply zl_wp; auto. intros m6 F1 (F2 & F3).
    wbind. apply zb_wp; auto. intros m7 G1 (G2 & G3).
    wbind. apply (gemm_wp k (n - k) b); auto; try lia. intros m8 K1 (K2 & K3).
    wbind. apply (last_wp k (n - k) b); auto; try lia. intros m9 M1 (M2 & M3).
    apply HQ.
    (* the columns of U^-1 *)
    assert (R34 : forall i j, 0 <= i < n -> 0 <= j < n -> k <= i -> m4.[i, j] = m2.[i, j]).
    { intros i j Hi Hj Hki. rewrite C2; [|apply PP; lia|unfold inb; lia]. apply B2; [apply PP; lia|unfold inb; lia]. }
    assert (R7 : forall i j, 0 <= i < n -> 0 <= j < n -> ~ k <= j < k + b -> m7.[i, j] = m1.[i, j]).
    { intros i j Hi Hj Hne. rewrite G2; [|apply PP; lia|unfold inb; lia]. rewrite F2; [|apply PP; lia|unfold inb; lia].
      rewrite (wonly_elt m4 m5); [|auto|apply PP; lia]. rewrite C2; [|apply PP; lia|unfold inb; lia]. rewrite B2; [|apply PP; lia|unfold inb; lia].
      apply A3; [apply PP; lia|unfold inb; lia]. }
    assert (V7a : forall i j, 0 <= i < k -> 0 <= j < b -> m7.[i, k + j] = m4.[i, k + j]).
    { intros i j Hi Hj. rewrite G2; [|apply PP; lia|unfold inb; lia]. rewrite F2; [|apply PP; lia|unfold inb; lia]. apply wonly_elt; [auto|apply PP; lia]. }
    assert (V7b : forall i j, 0 <= i < b -> 0 <= j < b -> m7.[k + i, k + j] = tr true (fun i j => m2.[k + i, k + j]) i j).
    { intros i j Hi Hj. rewrite G2; [|apply PP; lia|unfold inb; lia]. rewrite F1 by lia. unfold PInvM.tr, inT. destruct (i <=? j); [|reflexivity].
      rewrite (wonly_elt m4 m5); [|auto|apply PP; lia]. apply R34; lia. }
    assert (LWm : forall i j, 0 <= i < n - k -> 0 <= j < b -> j < i -> elt m5 (LW (n - k) b) i j = m.[k + i, k + j]).
    { intros i j Hi Hj Hji. rewrite D1 by lia. rewrite R34 by lia. destruct (Z_lt_ge_dec i b) as [Hib|Hib].
      - rewrite A2 by lia. apply U1; lia.
      - rewrite A3; [|apply PP; lia|unfold inb; lia]. apply U1; lia. }
    assert (LW7 : forall i j, 0 <= i < n - k -> 0 <= j < b -> elt m7 (LW (n - k) b) i j = elt m5 (LW (n - k) b) i j).
    { intros i j Hi Hj. rewrite (only_w _ _ _ _ m6 m7 (n - k) b i j (conj G2 G3)) by lia. apply (only_w _ _ _ _ m5 m6 (n - k) b i j (conj F2 F3)); lia. }
    assert (LW8 : forall i j, 0 <= i < n - k -> 0 <= j < b -> elt m8 (LW (n - k) b) i j = elt m5 (LW (n - k) b) i j).
    { intros i j Hi Hj. rewrite (only_w _ _ _ _ m7 m8 (n - k) b i j (conj K2 K3)) by lia. apply LW7; lia. }
    apply (bstep m k b m1 m9 (fun i j => m7.[i, k + j])); auto; try lia.
    - apply vcol; try lia.
      + intros i j Hi Hj. specialize (G1 (i - (k + b)) j ltac:(lia) Hj). replace (k + b + (i - (k + b))) with i in G1 by lia. exact G1.
      + intros i j Hi Hj. rewrite <- (A1 i j Hi Hj). apply vsum_ext. intros q Hq. rewrite V7b by lia. f_equal.
        unfold PInvM.tr. destruct (inT true i q); [|reflexivity]. rewrite U1 by lia. reflexivity.
      + intros i j Hi Hj. specialize (C1 i j ltac:(split; cbn [rows cols armas_submatrix_unsafe armas_make]; lia)).
        change (has (Z.lor ARMAS_LEFT ARMAS_UPPER) ARMAS_RIGHT) with false in C1. change (has (Z.lor ARMAS_LEFT ARMAS_UPPER) ARMAS_UPPER) with true in C1.
        change (has (Z.lor ARMAS_LEFT ARMAS_UPPER) ARMAS_UNIT) with false in C1. cbv iota in C1. cbn [cols armas_submatrix_unsafe armas_make] in C1.
        specialize (B1 i j ltac:(split; cbn [rows cols armas_submatrix_unsafe armas_make]; lia)). cbv iota in B1. cbn [cols armas_submatrix_unsafe armas_make] in B1.
        transitivity (opp K 1' *' elt m3 (V 0 k k b) i j).
        * rewrite <- C1. apply vsum_ext. intros q Hq. rewrite V7a by lia. rewrite V_elt, Z.add_0_l. f_equal.
          rewrite (optri_tr K) by discriminate. unfold PInvM.tr. destruct (inT true i q); [|reflexivity]. rewrite V_elt, !Z.add_0_l.
          rewrite B2; [|apply PP; lia|unfold inb; lia]. rewrite A3; [|apply PP; lia|unfold inb; lia]. rewrite U1 by lia. reflexivity.
        * rewrite B1. rewrite (vsum_ext K b _ (fun q => m.[i, k + q] *' m7.[k + q, k + j])); [ring|].
          intros q Hq. rewrite V7b by lia. f_equal.
          -- rewrite V_elt, Z.add_0_l. rewrite A3; [|apply PP; lia|unfold inb; lia]. apply U1; lia.
          -- rewrite (optri_tr K) by discriminate. unfold PInvM.tr. rewrite V_elt. reflexivity.
    - intros p j Hp Hj. transitivity (m8.[p, k + j]).
      + rewrite <- (M1 p j Hp Hj). apply vsum_ext. intros q Hq. f_equal. unfold lw.
        replace (k + q =? k + j) with (q =? j) by Lia.lia. replace (k + j <? k + q) with (j <? q) by Lia.lia. destruct (q =? j); [reflexivity|].
        destruct (j <? q) eqn:X; [|reflexivity]. rewrite LW8 by lia. symmetry. apply LWm; Lia.lia.
      + rewrite K1 by lia. f_equal. apply vsum_ext. intros q Hq. rewrite R7 by lia. rewrite LW7 by lia. rewrite LWm by lia.
        replace (k + (b + q)) with (k + b + q) by lia. reflexivity.
    - intros i j Hp Hne. pose proof Hp as (Hi & Hj). rewrite Sq in Hi. fold n in Hi, Hj. rewrite M2; [|auto|unfold inb; lia]. rewrite K2; [|auto|unfold inb; lia]. apply R7; lia.
    - intros a X Y Z. rewrite M3, K3, G3, F3 by auto. rewrite D2 by auto. rewrite C3, B3, A4; auto.
  Qed.

  Lemma lblk_wp : forall m lb ce, 0 < lb <= e_lb E -> n * lb <= w -> (forall i, 0 <= i < n -> m.[i, i] <> 0') -> (forall x, 0 <= x < n -> solver_ok x) ->
    wp (blk_inverse_fused K E A W lb ce) L m (fun s m' => s = (0, ce) /\ binv m 0 m').
  Proof.
    intros m lb ce Hlb Hw NZ SO. pose proof EO as (_ & _ & Hf1 & Hf2 & _). pose proof OKA as ((W1 & W2 & W3) & _). fold n in W2, Hf2.
    unfold blk_inverse_fused. wbind.
    replace (ATL (mat_partition_2x2 A 0 0 PBottom)) with (subm A 0 0 n n).
    2:{ unfold mat_partition_2x2. cbn [ATL]. rewrite ?Z.sub_0_r, Sq. reflexivity. }
    apply (wp_up L A lb _ (fun k st m' => fst st = (0, ce) /\ cols (snd st) = k /\ k <= n /\ binv m k m')); try lia.
    - split; [reflexivity|]. split; [|split; [lia|apply binv_n]].
      unfold mat_partition_1x2. replace (0 >? cols A) with false by Lia.lia. cbn [fst snd cols armas_submatrix_unsafe armas_make]. unfold n. lia.
    - intros q (s & AL) m1 Hq (S1 & S2 & S3 & HI). cbn [fst snd] in *. subst s. cbv zeta.
      set (b := Z.min lb q). set (k := q - b). assert (Hb : 0 < b <= q) by (unfold b; lia).
      unfold mat_repartition_1x2to1x3. rewrite S2. replace (if lb >? q then q else lb) with b by (unfold b; destruct (lb >? q) eqn:X; Lia.lia). fold k.
      unfold b3at. cbn [A00 A01 A11 A21]. rewrite !Sq. fold n. replace (n - q) with (n - k - b) by (unfold k; lia).
      replace q with (k + b) in * by (unfold k; lia). assert (Hbl : b <= lb) by (unfold b; lia). clearbody k b.
      assert (IAB : inA A k k (n - k) b) by (unfold inA; rewrite Sq; fold n; lia).
      rewrite (merge_eq k b) by (auto; lia). cbn [rows cols armas_submatrix_unsafe armas_make]. unfold mat_partition_2x1. cbn [rows cols armas_make].
      replace (b >? n - k) with false by Lia.lia.
      cbn [fst snd]. apply (lround_wp _ (fun u => ret (luinv_err 0 u, _)) m m1 k b ce). all: auto; try lia; try nia.
      { apply SO. lia. }
      intros m' HI'. apply wp_ret. cbn [fst snd]. split; [reflexivity|]. split; [|split; [lia|exact HI']].
      unfold mat_continue_1x3to1x2. cbn [fst cols rows armas_submatrix_unsafe armas_make]. lia.
    - intros (s & AL) m1 (S1 & S2 & S3 & HI). apply wp_ret. cbn [fst] in *. auto.
  Qed.
End P.
