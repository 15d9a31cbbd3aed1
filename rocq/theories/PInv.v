(* PInv.v: the inverse of a triangular matrix. *)
From Coq Require Import ZArith Lia Bool ZifyBool Ring Field.
From Verif Require Import Mem MView SpecView PView PSub Hoare MFlags MBase MCopy PUpd PCopy
  MNum SpecNum MBlas1 PSum PBlas1 MElem PElem MBlas2 PMvec PBlas2 PFrame SpecTrm MTrm PTrm MGemm PGemm PMatcpy PMult
  MTrsm PTrsm MTrmm PTrmm MLap PLap MQr MQrMul PQrMul MInv PInvM
  Properties_Gemm Properties_Trm Properties_Trsm Properties_Trmm.
Local Open Scope Z_scope.
Local Open Scope prog_scope.
Ltac lia := nobool; zlia.

Section P.
  Context {T : Type} (K : num T).
  Hypotheses (HF : is_field K) (HE : eqb_ok K).
  Let HR : is_ring K := Field_theory.F_R HF.
  Let HR' : ring_theory (zero K) (one K) (add K) (mul K) (sub K) (opp K) eq := HR.
  Add Ring KringIP : HR'.
  Local Notation "a +' b" := (add K a b) (at level 50, left associativity).
  Local Notation "a *' b" := (mul K a b) (at level 40, left associativity).
  Local Notation "0'" := (zero K).
  Local Notation "1'" := (one K).
  Local Notation tr := (tr K).
  Local Notation inv_on := (inv_on K).

  Variables (E : lenv) (L : Z -> bool) (cb : cbuf).
  Local Notation p := (e_p E).

  Lemma optri_tr : forall up un (m : Z -> T) V i j, (un = true -> i = j -> elt m V i i = 1') ->
    optri K up un false m V i j = tr up (elt m V) i j.
  Proof.
    intros up un m V i j H. unfold optri, tri, PInvM.tr, inT. destruct (i =? j) eqn:E1.
    - apply Z.eqb_eq in E1. subst j. replace (i <=? i) with true by lia. destruct un; [rewrite H by auto|]; destruct up; reflexivity.
    - destruct up; [destruct (i <? j) eqn:E2, (i <=? j) eqn:E3|destruct (j <? i) eqn:E2, (j <=? i) eqn:E3]; try reflexivity; exfalso; lia.
  Qed.

  Section B.
    Variable A : view.
    Hypotheses (EO : env_ok E L cb A) (OKA : mok L A).
    Local Notation V := (armas_submatrix_unsafe A).
    Local Notation "m .[ i , j ]" := (elt m A i j) (at level 1, format "m .[ i ,  j ]").
    Local Notation only := (blk_only E cb A).

    Lemma getu_wp : forall r c m (Q : T -> (Z -> T) -> Prop), inA A r c 1 1 -> Q (m.[r, c]) m ->
      wp (armas_get_unsafe (V r c 1 1) 0 0) L m Q.
    Proof.
      intros r c m Q H HQ. apply get_unsafe_wp.
      - apply (V_ok L A OKA _ _ _ _ H).
      - split; cbn [rows cols armas_submatrix_unsafe armas_make]; lia.
      - rewrite V_elt, !Z.add_0_r. exact HQ.
    Qed.

    Lemma setu_wp : forall r c v m (Q : unit -> (Z -> T) -> Prop), inA A r c 1 1 ->
      (forall m', m'.[r, c] = v -> only r c 1 1 m m' -> Q tt m') ->
      wp (armas_set_unsafe (V r c 1 1) 0 0 v) L m Q.
    Proof.
      intros r c v m Q H HQ. apply set_unsafe_wp.
      - apply (V_ok L A OKA _ _ _ _ H).
      - apply (V_ok L A OKA _ _ _ _ H).
      - split; cbn [rows cols armas_submatrix_unsafe armas_make]; lia.
      - intros m' H1 _ H3. rewrite V_elt, !Z.add_0_r in H1. apply HQ; auto. apply (blk_frame E L); auto. apply outb_oc; auto.
    Qed.

    (* x := alpha*T*x *)
    Lemma mvtrm_wp : forall (up : bool) r c nr r1 c1 alpha m (Q : Z -> (Z -> T) -> Prop),
      inA A r c nr 1 -> inA A r1 c1 nr nr -> r + nr <= r1 \/ r1 + nr <= r \/ c + 1 <= c1 \/ c1 + nr <= c ->
      (forall m', (forall i, 0 <= i < nr -> m'.[r + i, c] = alpha *' vsum K nr (fun q =>
            tr up (fun i j => m.[r1 + i, c1 + j]) i q *' m.[r + q, c])) -> only r c nr 1 m m' -> Q 0 m') ->
      wp (l_mvmult_trm K E (V r c nr 1) alpha (V r1 c1 nr nr) (if up then ARMAS_UPPER else ARMAS_LOWER)) L m Q.
    Proof.
      intros up r c nr r1 c1 alpha m Q I1 I2 D HQ. unfold l_mvmult_trm. pose proof EO as (E1 & E2 & E3 & E4 & _).
      pose proof I1 as (H1 & H2 & H3 & H4 & H5 & H6).
      destruct (V_col L A OKA _ _ _ I1) as (Vx & Wx & Lx). destruct (V_ok L A OKA _ _ _ _ I2) as (W2 & L2).
      destruct (C22_mvmult_trm T K HR HE (e_fuel E) (e_b1 E) (e_b2 E) (e_opt E) L m (V r c nr 1) alpha (V r1 c1 nr nr)
        (if up then ARMAS_UPPER else ARMAS_LOWER)) as (m' & R1 & R2 & R3); auto.
      + destruct up; reflexivity.
      + rewrite col_len. lia.
      + apply (V_disj L); auto.
      + rewrite col_len. reflexivity.
      + exists 0, m'. split; [exact R1|]. apply HQ; [|apply (blk_frame E L); auto; apply outb_oc; auto].
        intros i Hi. specialize (R2 i). rewrite col_len, !col_velt in R2 by auto. rewrite R2 by auto. f_equal. apply vsum_ext. intros q Hq.
        rewrite col_velt by auto. f_equal.
        replace (has (if up then ARMAS_UPPER else ARMAS_LOWER) ARMAS_TRANS && (has (if up then ARMAS_UPPER else ARMAS_LOWER) ARMAS_UPPER ||
          has (if up then ARMAS_UPPER else ARMAS_LOWER) ARMAS_LOWER)) with false by (destruct up; reflexivity).
        replace (has (if up then ARMAS_UPPER else ARMAS_LOWER) ARMAS_UNIT) with false by (destruct up; reflexivity).
        replace (has (if up then ARMAS_UPPER else ARMAS_LOWER) ARMAS_UPPER) with up by (destruct up; reflexivity).
        rewrite optri_tr by discriminate. unfold PInvM.tr. rewrite V_elt. reflexivity.
    Qed.

    (* B := T*B *)
    Lemma mtrm_wp : forall (up un : bool) flags r c nr nc r1 c1 m (Q : Z -> (Z -> T) -> Prop),
      inA A r c nr nc -> inA A r1 c1 nr nr -> r + nr <= r1 \/ r1 + nr <= r \/ c + nc <= c1 \/ c1 + nr <= c ->
      has flags ARMAS_RIGHT = false -> has flags ARMAS_UPPER = up -> has flags ARMAS_LOWER = negb up -> has flags ARMAS_UNIT = un ->
      has flags ARMAS_TRANSA = false -> has flags ARMAS_ABSA = false ->
      (un = true -> forall i, 0 <= i < nr -> m.[r1 + i, c1 + i] = 1') ->
      (forall m', (forall i j, 0 <= i < nr -> 0 <= j < nc -> m'.[r + i, c + j] = vsum K nr (fun q =>
            tr up (fun i j => m.[r1 + i, c1 + j]) i q *' m.[r + q, c + j])) -> only r c nr nc m m' -> Q 0 m') ->
      wp (l_mult_trm K E (V r c nr nc) 1' (V r1 c1 nr nr) flags) L m Q.
    Proof.
      intros up un flags r c nr nc r1 c1 m Q I1 I2 D F1 F2 F3 F4 F5 F6 HU HQ. unfold l_mult_trm. pose proof EO as (E1 & E2 & E3 & E4 & E5 & _).
      rewrite E5. pose proof I1 as (H1 & H2 & H3 & H4 & H5 & H6).
      destruct (V_ok L A OKA _ _ _ _ I1) as (W1 & L1). destruct (V_ok L A OKA _ _ _ _ I2) as (W2 & L2).
      assert (DD : disjoint (V r c nr nc) (V r1 c1 nr nr)) by (apply (V_disj L); auto).
      destruct (Z.eq_dec nr 0) as [Z1|Z1]; [|destruct (Z.eq_dec nc 0) as [Z2|Z2]].
      1,2: exists 0, m; unfold armas_mult_trm, armas_size; cbn [rows cols armas_submatrix_unsafe armas_make];
        rewrite ?Z1, ?Z2, ?Z.mul_0_r, ?Z.mul_0_l; split; [reflexivity|];
        apply HQ; [intros; exfalso; lia|apply (blk_frame E L); auto; apply outb_refl].
      assert (Pf : forall m', trm_product K (has flags ARMAS_RIGHT) (has flags ARMAS_UPPER) (has flags ARMAS_UNIT) (has flags ARMAS_TRANSA) m m' 1' (V r1 c1 nr nr) (V r c nr nc) ->
        forall i j, 0 <= i < nr -> 0 <= j < nc -> m'.[r + i, c + j] = vsum K nr (fun q => tr up (fun i j => m.[r1 + i, c1 + j]) i q *' m.[r + q, c + j])).
      { intros m' P i j Hi Hj. specialize (P i j ltac:(split; cbn [rows cols armas_submatrix_unsafe armas_make]; lia)).
        rewrite F1, F2, F4, F5 in P. rewrite V_elt in P. rewrite P. cbn [cols armas_submatrix_unsafe armas_make].
        transitivity (vsum K nr (fun k => optri K up un false m (V r1 c1 nr nr) i k *' elt m (V r c nr nc) k j)); [ring|].
        apply vsum_ext. intros q Hq. rewrite V_elt. f_equal. rewrite optri_tr.
        - unfold PInvM.tr. rewrite V_elt. reflexivity.
        - intros X _. rewrite V_elt. apply HU; auto. }
      destruct (has (e_opt E) ARMAS_ONAIVE) eqn:En1.
      - destruct (C78_mult_trm_naive T K HR HE (e_fuel E) (e_b2 E) (e_opt E) (Some cb) (e_mb E) (e_nb E) (e_kb E) p L m (V r c nr nc) 1' (V r1 c1 nr nr) flags)
          as (m' & X1 & X2 & X3); auto; try (rewrite ?F1, ?F2, ?F3, ?andb_false_r; auto; destruct up; auto; fail);
          try (cbn [rows cols armas_submatrix_unsafe armas_make]; lia).
        exists 0, m'. split; [exact X1|]. apply HQ; [apply Pf; exact X2|]. apply (blk_frame E L); auto. apply outb_oc; auto.
      - destruct (C78_mult_trm_partial T K HR HE (e_fuel E) (e_b2 E) (e_opt E) cb (e_mb E) (e_nb E) (e_kb E) p L m (V r c nr nc) 1' (V r1 c1 nr nr) flags)
          as (m' & X1 & X2 & X3); auto; try (rewrite ?F1, ?F2, ?F3, ?andb_false_r; auto; fail);
          try (cbn [rows cols armas_submatrix_unsafe armas_make]; lia).
        { apply (V_buf E L cb A EO); intros a; apply (V_in L A OKA); auto. }
        exists 0, m'. split; [exact X1|]. apply HQ; [apply Pf; exact X2|]. apply (blk_frame E L); auto.
    Qed.

    (* B := -B*T^-1 *)
    Lemma strm_wp : forall (up un : bool) flags r c nr nc r1 c1 m (Q : Z -> (Z -> T) -> Prop),
      inA A r c nr nc -> inA A r1 c1 nc nc -> r + nr <= r1 \/ r1 + nc <= r \/ c + nc <= c1 \/ c1 + nc <= c ->
      has flags ARMAS_RIGHT = true -> has flags ARMAS_LEFT = false -> has flags ARMAS_UPPER = up -> has flags ARMAS_LOWER = negb up -> has flags ARMAS_UNIT = un ->
      has flags ARMAS_TRANSA = false -> plain_flags flags ->
      (un = true -> forall i, 0 <= i < nc -> m.[r1 + i, c1 + i] = 1') ->
      has (e_opt E) ARMAS_ONAIVE = true \/ nc < e_b2 E ->
      (forall m', ((forall i, 0 <= i < nc -> m.[r1 + i, c1 + i] <> 0') -> forall i j, 0 <= i < nr -> 0 <= j < nc ->
            vsum K nc (fun q => m'.[r + i, c + q] *' tr up (fun i j => m.[r1 + i, c1 + j]) q j) = opp K (m.[r + i, c + j])) ->
         only r c nr nc m m' -> Q 0 m') ->
      wp (l_solve_trm K E (V r c nr nc) (opp K 1') (V r1 c1 nc nc) flags) L m Q.
    Proof.
      intros up un flags r c nr nc r1 c1 m Q I1 I2 D F1 F0 F2 F3 F4 F5 F6 HU HB HQ. unfold l_solve_trm. pose proof EO as (E1 & E2 & E3 & E4 & E5 & _).
      rewrite E5. pose proof I1 as (H1 & H2 & H3 & H4 & H5 & H6).
      destruct (V_ok L A OKA _ _ _ _ I1) as (W1 & L1). destruct (V_ok L A OKA _ _ _ _ I2) as (W2 & L2).
      assert (DD : disjoint (V r c nr nc) (V r1 c1 nc nc)) by (apply (V_disj L); auto).
      destruct (Z.eq_dec nr 0) as [Z1|Z1]; [|destruct (Z.eq_dec nc 0) as [Z2|Z2]].
      1,2: exists 0, m; unfold armas_solve_trm, armas_size; cbn [rows cols armas_submatrix_unsafe armas_make];
        rewrite ?Z1, ?Z2, ?Z.mul_0_r, ?Z.mul_0_l; split; [reflexivity|];
        apply HQ; [intros; exfalso; lia|apply (blk_frame E L); auto; apply outb_refl].
      assert (Pf : forall m', solves_trm K true up un false m m' (opp K 1') (V r1 c1 nc nc) (V r c nr nc) ->
        forall i j, 0 <= i < nr -> 0 <= j < nc -> vsum K nc (fun q => m'.[r + i, c + q] *' tr up (fun i j => m.[r1 + i, c1 + j]) q j) = opp K (m.[r + i, c + j])).
      { intros m' P i j Hi Hj. specialize (P i j ltac:(split; cbn [rows cols armas_submatrix_unsafe armas_make]; lia)).
        cbn [cols armas_submatrix_unsafe armas_make] in P. cbv iota in P. rewrite V_elt in P.
        transitivity (opp K 1' *' m.[r + i, c + j]); [|ring]. rewrite <- P. apply vsum_ext. intros q Hq. rewrite V_elt. f_equal.
        rewrite optri_tr.
        - unfold PInvM.tr. rewrite V_elt. reflexivity.
        - intros X _. rewrite V_elt. apply HU; auto. }
      assert (Hd : (forall i, 0 <= i < nc -> m.[r1 + i, c1 + i] <> 0') -> has flags ARMAS_UNIT = true \/ (forall i, 0 <= i < cols (V r1 c1 nc nc) -> elt m (V r1 c1 nc nc) i i <> 0')).
      { intros G. right. cbn [cols armas_submatrix_unsafe armas_make]. intros i Hi. rewrite V_elt. apply G, Hi. }
      destruct (has (e_opt E) ARMAS_ONAIVE) eqn:En1.
      - destruct (trsm_run_naive T K HF HE (e_fuel E) (e_b2 E) (e_opt E) (Some cb) (e_mb E) (e_nb E) (e_kb E) p L m (V r c nr nc) (opp K 1') (V r1 c1 nc nc) flags)
          as (m' & X1 & X2 & X3); auto; try (rewrite ?F0, ?F1, ?F2, ?F3; auto; destruct up; auto; fail);
          try (cbn [rows cols armas_submatrix_unsafe armas_make]; lia).
        exists 0, m'. split; [exact X1|]. apply HQ; [|apply (blk_frame E L); auto; apply outb_oc; auto].
        intros G. apply Pf. specialize (X2 (Hd G)). rewrite F1, F2, F4, F5 in X2. exact X2.
      - destruct HB as [HB|HB]; [discriminate|].
        destruct (trsm_run K HF HE (e_fuel E) (e_b2 E) (e_opt E) cb (e_mb E) (e_nb E) (e_kb E) p L m (V r c nr nc) (opp K 1') (V r1 c1 nc nc) flags)
          as (m' & X1 & X2 & X3); auto; try (rewrite ?F0, ?F1, ?F2, ?F3; auto; fail);
          try (cbn [rows cols armas_submatrix_unsafe armas_make]; lia).
        { apply (V_buf E L cb A EO); intros a; apply (V_in L A OKA); auto. }
        { right. cbn [rows cols armas_submatrix_unsafe armas_make]. destruct (has (e_opt E) ARMAS_ORECURSIVE); lia. }
        exists 0, m'. split; [exact X1|]. apply HQ; [|apply (blk_frame E L); auto].
        intros G. apply Pf. specialize (X2 (Hd G)). rewrite F1, F2, F4, F5 in X2. exact X2.
    Qed.
  End B.
End P.
