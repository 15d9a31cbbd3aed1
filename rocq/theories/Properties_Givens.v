(* Properties_Givens.v: Givens rotations (C89). *)
From Coq Require Import ZArith Lia Bool ZifyBool Field.
From Verif Require Import Mem MView MFlags SpecView MNum SpecNum Hoare PView PUpd PFrame PNorm PSort MGivens SpecGivens PGivens Inst Properties_Copy.
Local Open Scope Z_scope.
Local Open Scope prog_scope.
Ltac lia := Lia.lia.

Section F.
  Context {T : Type} (K : num T).
  Hypotheses (HF : is_field K) (HO : is_ordered K) (HE : eqb_ok K) (HS : sqrt_ok K).
  Let HF' : field_theory (zero K) (one K) (add K) (mul K) (sub K) (opp K) (div K) (fun x => div K (one K) x) eq := HF.
  Add Field KfieldG : HF'.
  Local Notation "x +' y" := (add K x y) (at level 50, left associativity).
  Local Notation "x -' y" := (sub K x y) (at level 50, left associativity).
  Local Notation "x *' y" := (mul K x y) (at level 40, left associativity).
  Local Notation "x /' y" := (div K x y) (at level 40, left associativity).
  Local Notation "0'" := (zero K).
  Local Notation "1'" := (one K).

  Lemma mulne : forall a b, a <> 0' -> b <> 0' -> a *' b <> 0'.
  Proof. intros a b Ha Hb H. apply Hb. transitivity (1' /' a *' (a *' b)); [field; auto|rewrite H; ring]. Qed.

  Lemma u_ok : forall t, let u := sqrt K (1' +' t *' t) in ltb K 0' u = true /\ u *' u = 1' +' t *' t /\ u <> 0'.
  Proof.
    intros t u. assert (P : ltb K 0' (1' +' t *' t) = true) by (apply (o_add_pos K HF HO); [apply (o_one K HF HO)|apply (o_sq_nn K HF HO)]).
    destruct (HS (1' +' t *' t)) as (S1 & S2); [apply (o_nlt K HO); auto|]. fold u in S1, S2.
    assert (N : u <> 0'). { intro H. rewrite H in S2. apply (o_ne K HO _ _ P). rewrite <- S2. ring. }
    split; [|auto]. destruct (o_tot K HO 0' u) as [E|[E|E]]; auto; congruence.
  Qed.

  Lemma gvrotg_ok : forall a b, let '(c, s, r) := gvrotg K a b in
    c *' c +' s *' s = 1' /\ c *' a +' s *' b = r /\ c *' b -' s *' a = 0' /\ (ltb K 0' a = true -> ltb K 0' r = true).
  Proof.
    intros a b. unfold gvrotg. destruct (eqb K b 0') eqn:Eb.
    { apply HE in Eb. subst b. repeat split; try ring. auto. }
    assert (Nb : b <> 0') by (intro H; apply HE in H; congruence).
    destruct (eqb K a 0') eqn:Ea.
    { apply HE in Ea. subst a. repeat split; try ring. intro H. rewrite (o_irr K HO) in H. discriminate. }
    assert (Na : a <> 0') by (intro H; apply HE in H; congruence).
    destruct (ltb K (abs K a) (abs K b)) eqn:Ec.
    - set (t := a /' b). destruct (u_ok t) as (U1 & U2 & U3). set (u0 := sqrt K (1' +' t *' t)) in *.
      set (u := if ltb K b 0' then opp K u0 else u0).
      assert (E2 : u *' u = 1' +' t *' t) by (unfold u; destruct (ltb K b 0'); rewrite <- U2; ring).
      assert (E3 : u <> 0') by (unfold u; destruct (ltb K b 0'); auto; intro H; apply U3; replace u0 with (opp K (opp K u0)) by ring; rewrite H; ring).
      assert (Et : t *' b = a) by (unfold t; field; auto).
      assert (Hr : ltb K 0' (b *' u) = true).
      { unfold u. destruct (ltb K b 0') eqn:Es.
        - replace (b *' opp K u0) with (opp K b *' u0) by ring. apply (o_mul K HO); auto. apply (o_opp K HF HO); auto.
        - apply (o_mul K HO); auto. destruct (o_tot K HO 0' b) as [E|[E|E]]; auto; congruence. }
      clearbody t u. subst a. repeat split.
      + transitivity ((1' +' t *' t) /' (u *' u)); [field; auto|]. rewrite <- E2. field. auto.
      + transitivity (b *' (1' +' t *' t) /' u); [field; auto|]. rewrite <- E2. field. auto.
      + field. auto.
      + auto.
    - set (t := b /' a). destruct (u_ok t) as (U1 & U2 & U3). set (u := sqrt K (1' +' t *' t)) in *.
      assert (Et : t *' a = b) by (unfold t; field; auto).
      clearbody t u. subst b. repeat split.
      + transitivity ((1' +' t *' t) /' (u *' u)); [field; auto|]. rewrite <- U2. field. auto.
      + transitivity (a *' (1' +' t *' t) /' u); [field; auto|]. rewrite <- U2. field. auto.
      + field. auto.
      + intros H. apply (o_mul K HO); auto.
  Qed.
End F.


Section R.
  Context {T : Type} (K : num T).
  Hypothesis HR : is_ring K.
  Let HR' : ring_theory (zero K) (one K) (add K) (mul K) (sub K) (opp K) eq := HR.
  Add Ring KringG2 : HR'.

  Lemma givens_id : forall y0 y1 c s,
    add K (mul K (add K (mul K c y0) (mul K s y1)) (add K (mul K c y0) (mul K s y1)))
          (mul K (sub K (mul K c y1) (mul K s y0)) (sub K (mul K c y1) (mul K s y0))) =
    mul K (add K (mul K c c) (mul K s s)) (add K (mul K y0 y0) (mul K y1 y1)).
  Proof. intros. ring. Qed.
End R.

Section V.
  Context {T : Type} (K : num T).

  Lemma velt_w : forall (m : Z -> T) x k v j, isvec x -> wf x -> 0 <= k < vlen x -> 0 <= j < vlen x ->
    velt (fun a => if a =? vad x k then v else m a) x j = if j =? k then v else velt m x j.
  Proof.
    intros m x k v j V W Hk Hj. rewrite !velt_vad. destruct (vad x j =? vad x k) eqn:E.
    - assert (j = k) by (apply (vad_inj x V W); auto; lia). subst. rewrite Z.eqb_refl. reflexivity.
    - destruct (j =? k) eqn:E1; [|reflexivity]. assert (j = k) by lia. subst. lia.
  Qed.

  Lemma velt_wo : forall (m : Z -> T) x y k v j, isvec x -> wf x -> isvec y -> wf y -> disjoint x y ->
    0 <= k < vlen y -> 0 <= j < vlen x -> velt (fun a => if a =? vad y k then v else m a) x j = velt m x j.
  Proof.
    intros m x y k v j V W V' W' D Hk Hj. rewrite !velt_vad. destruct (vad x j =? vad y k) eqn:E; [|reflexivity].
    exfalso. apply (D (vad x j)); [apply vad_cell; auto|]. replace (vad x j) with (vad y k) by lia. apply vad_cell; auto.
  Qed.

  Lemma set_at_wp1 : forall L (m : Z -> T) x k v (Q : unit -> (Z -> T) -> Prop), isvec x -> wf x -> allocated L x -> 0 <= k < vlen x ->
    Q tt (fun a => if a =? vad x k then v else m a) -> wp (armas_set_at_unsafe x k v) L m Q.
  Proof.
    intros. unfold armas_set_at_unsafe. rewrite set_at_addr. apply wp_wr; auto. apply H1, vad_cell; auto.
  Qed.

  Lemma gvrot_vec_wp : forall L (m : Z -> T) X Y c s,
    isvec X -> isvec Y -> wf X -> wf Y -> allocated L X -> allocated L Y -> disjoint X Y -> vlen X = vlen Y ->
    wp (armas_gvrot_vec K X Y c s) L m (fun r m' => r = 0 /\
      (forall k, 0 <= k < vlen X -> velt m' X k = add K (mul K c (velt m X k)) (mul K s (velt m Y k)) /\
                                    velt m' Y k = sub K (mul K c (velt m Y k)) (mul K s (velt m X k))) /\
      (forall a, ~ cell X a -> ~ cell Y a -> m' a = m a)).
  Proof.
    intros L m X Y c s VX VY WX WY LX LY D N. unfold armas_gvrot_vec. wbind. change (armas_size X) with (vlen X).
    assert (D' : disjoint Y X) by (apply disj_sym; auto).
    assert (Hv : 0 <= vlen X) by (unfold vlen; destruct WX; nia).
    apply wp_for1 with (I := fun k m' =>
      (forall j, 0 <= j < vlen X ->
         velt m' X j = (if j <? k then add K (mul K c (velt m X j)) (mul K s (velt m Y j)) else velt m X j) /\
         velt m' Y j = (if j <? k then sub K (mul K c (velt m Y j)) (mul K s (velt m X j)) else velt m Y j)) /\
      (forall a, ~ cell X a -> ~ cell Y a -> m' a = m a)).
    - split; auto. intros j Hj. replace (j <? 0) with false by lia. auto.
    - intros k m1 Hk (I1 & I2). wbind. apply get_at_wp; auto. wbind. apply get_at_wp; auto; [rewrite <- N; auto|].
      wbind. apply set_at_wp1; auto. apply set_at_wp1; auto; [rewrite <- N; auto|]. cbn [armas_gvrotate fst snd].
      destruct (I1 k Hk) as (J1 & J2). replace (k <? k) with false in * by lia. rewrite J1, J2. split.
      + intros j Hj. rewrite velt_wo by (auto; rewrite <- N; auto). rewrite velt_w by auto.
        rewrite velt_w by (auto; rewrite <- N; auto). rewrite velt_wo by (auto; rewrite <- N; auto).
        destruct (I1 j Hj) as (G1 & G2). destruct (j =? k) eqn:E.
        * assert (j = k) by lia. subst. replace (k <? k + 1) with true by lia. auto.
        * replace (j <? k + 1) with (j <? k) by lia. auto.
      + intros a A1 A2. rewrite <- I2 by auto.
        destruct (a =? vad Y k) eqn:E1; [exfalso; apply A2; replace a with (vad Y k) by lia; apply vad_cell; auto; unfold vdom; lia|].
        destruct (a =? vad X k) eqn:E2; [exfalso; apply A1; replace a with (vad X k) by lia; apply vad_cell; auto|]. reflexivity.
    - intros m1 (I1 & I2). rewrite Z.max_r in I1 by lia. apply wp_ret. split; auto. split; auto.
      intros k Hk. destruct (I1 k Hk) as (G1 & G2). replace (k <? vlen X) with true in * by lia. auto.
  Qed.
End V.

(* arguments of armas_gvupdate *)
Definition upd_args (L : Z -> bool) (A C S : view) (left : bool) (start nrot : Z) : Prop :=
  wf A /\ allocated L A /\ isvec C /\ wf C /\ allocated L C /\ isvec S /\ wf S /\ allocated L S /\
  disjoint A C /\ disjoint A S /\ 0 <= start /\ 0 <= nrot /\ nrot <= vlen C /\ nrot <= vlen S /\
  start + nrot < (if left then rows A else cols A).


Section U.
  Context {T : Type} (K : num T).
  Hypotheses (HR : is_ring K) (HE : eqb_ok K).

  Lemma vkeep : forall A x (m m' : Z -> T) k, isvec x -> wf x -> disjoint A x -> only_changes A m m' -> 0 <= k < vlen x -> velt m' x k = velt m x k.
  Proof. intros A x m m' k V W D O Hk. rewrite !velt_vad. apply O. intro H. apply (D _ H). apply vad_cell; auto. Qed.

  Lemma rot_ext : forall (left : bool) c s k (X Y : Z -> Z -> T) A, (forall i j, pos A i j -> X i j = Y i j) ->
    0 <= k -> k + 1 < (if left then rows A else cols A) ->
    forall i j, pos A i j -> rot K left c s k (k + 1) X i j = rot K left c s k (k + 1) Y i j.
  Proof.
    intros [] c s k X Y A H H1 H2 i j Hp; cbn [rot].
    - apply (rotrows_ext K) with (A := A); auto; lia.
    - apply (rotcols_ext K) with (A := A); auto; lia.
  Qed.

  Lemma upd_fwd_wp : forall L (m : Z -> T) A C S (left : bool) start nrot, upd_args L A C S left start nrot ->
    wp (for_up 0 nrot 1 (fun n => let k := start + n in
          c <- armas_get_at_unsafe C n ;; s <- armas_get_at_unsafe S n ;;
          when (not_unit K c s) (if left then gvleft K A c s k (k + 1) 0 (cols A) else gvright K A c s k (k + 1) 0 (rows A)))) L m
      (fun _ m' => (forall i j, pos A i j -> elt m' A i j = rot_fwd K left start (velt m C) (velt m S) (Z.to_nat nrot) (elt m A) i j) /\
         only_changes A m m').
  Proof.
    intros L m A C S left start nrot (W & LA & VC & WC & LC & VS & WS & LS & DC & DS & H1 & H2 & H3 & H4 & H5).
    apply wp_for1 with (I := fun n m' =>
      (forall i j, pos A i j -> elt m' A i j = rot_fwd K left start (velt m C) (velt m S) (Z.to_nat n) (elt m A) i j) /\
      only_changes A m m').
    - split; [reflexivity|intros a _; reflexivity].
    - intros n m1 Hn (I1 & I2). cbv zeta. wbind. apply get_at_wp; auto; [lia|]. wbind. apply get_at_wp; auto; [lia|].
      rewrite (vkeep A C m m1), (vkeep A S m m1) by (auto; lia).
      eapply wp_conseq; [apply (rot_step_wp K HR HE); auto; [lia|destruct left; lia]|].
      intros _ m2 (E & O). split; [|intros a Ha; rewrite O by auto; auto].
      intros i j Hp. rewrite E by auto. replace (Z.to_nat (n + 1)) with (Datatypes.S (Z.to_nat n)) by lia. cbn [rot_fwd].
      rewrite Z2Nat.id by lia. apply rot_ext with (A := A); auto; [lia|destruct left; lia].
    - intros m1. rewrite Z.max_r by lia. auto.
  Qed.

  Lemma rot_bwd_ext : forall (left : bool) start c s A n (X Y : Z -> Z -> T), 0 <= start -> start + Z.of_nat n < (if left then rows A else cols A) ->
    (forall i j, pos A i j -> X i j = Y i j) ->
    forall i j, pos A i j -> rot_bwd K left start c s n X i j = rot_bwd K left start c s n Y i j.
  Proof.
    intros left start c s A n. induction n as [|n IH]; intros X Y H1 H2 H i j Hp; cbn [rot_bwd]; auto.
    apply IH; auto; [destruct left; lia|]. apply rot_ext; auto; [lia|destruct left; lia].
  Qed.

  Lemma upd_bwd_wp : forall L (m : Z -> T) A C S (left : bool) start nrot, upd_args L A C S left start nrot ->
    wp (for_up 0 nrot 1 (fun i => let k := start + nrot - i in let n := nrot - i in
          c <- armas_get_at_unsafe C (n - 1) ;; s <- armas_get_at_unsafe S (n - 1) ;;
          when (not_unit K c s) (if left then gvleft K A c s (k - 1) k 0 (cols A) else gvright K A c s (k - 1) k 0 (rows A)))) L m
      (fun _ m' => (forall i j, pos A i j -> elt m' A i j = rot_bwd K left start (velt m C) (velt m S) (Z.to_nat nrot) (elt m A) i j) /\
         only_changes A m m').
  Proof.
    intros L m A C S left start nrot (W & LA & VC & WC & LC & VS & WS & LS & DC & DS & H1 & H2 & H3 & H4 & H5).
    apply wp_for1 with (I := fun n m' =>
      (forall i j, pos A i j -> rot_bwd K left start (velt m C) (velt m S) (Z.to_nat (nrot - n)) (elt m' A) i j =
                                rot_bwd K left start (velt m C) (velt m S) (Z.to_nat nrot) (elt m A) i j) /\
      only_changes A m m').
    - rewrite Z.sub_0_r. split; [reflexivity|intros a _; reflexivity].
    - intros n m1 Hn (I1 & I2). cbv zeta. wbind. apply get_at_wp; auto; [lia|]. wbind. apply get_at_wp; auto; [lia|].
      rewrite (vkeep A C m m1), (vkeep A S m m1) by (auto; lia).
      set (k := start + nrot - n - 1). replace (start + nrot - n) with (k + 1) by (unfold k; lia).
      eapply wp_conseq; [apply (rot_step_wp K HR HE); auto; unfold k; [lia|destruct left; lia]|].
      intros _ m2 (E & O). split; [|intros a Ha; rewrite O by auto; auto].
      intros i j Hp. rewrite <- I1 by auto. replace (Z.to_nat (nrot - n)) with (Datatypes.S (Z.to_nat (nrot - (n + 1)))) by lia. cbn [rot_bwd].
      rewrite Z2Nat.id by lia. replace (start + (nrot - (n + 1))) with k by (unfold k; lia). replace (nrot - (n + 1)) with (nrot - n - 1) by lia.
      apply rot_bwd_ext with (A := A); auto. destruct left; lia.
    - intros m1. rewrite Z.max_r by lia. rewrite Z.sub_diag. intros (I1 & I2). split; auto.
  Qed.
End U.

(* computing the rotation that zeroes b *)
Theorem C89_gvcompute : forall T (K : num T), is_field K -> is_ordered K -> eqb_ok K -> sqrt_ok K ->
  forall a b, let '(c, s, r) := armas_gvcompute K a b in
    add K (mul K c c) (mul K s s) = one K /\
    armas_gvrotate K c s a b = (r, zero K) /\
    mul K r r = add K (mul K a a) (mul K b b) /\
    (ltb K (zero K) a = true -> ltb K (zero K) r = true).
Proof.
  intros T K HF HO HE HS a b. unfold armas_gvcompute. pose proof (gvrotg_ok K HF HO HE HS a b) as H.
  destruct (gvrotg K a b) as [[c s] r]. destruct H as (H1 & H2 & H3 & H4). split; auto. split; [|split; auto].
  - unfold armas_gvrotate. rewrite H2, H3. reflexivity.
  - pose proof (F_R HF) as HR. assert (HR' : is_ring K) by exact HR.
    transitivity (mul K (add K (mul K c c) (mul K s s)) (add K (mul K a a) (mul K b b))); [|rewrite H1; apply (Rmul_1_l HR)].
    transitivity (add K (mul K (add K (mul K c a) (mul K s b)) (add K (mul K c a) (mul K s b)))
                        (mul K (sub K (mul K c b) (mul K s a)) (sub K (mul K c b) (mul K s a)))).
    + rewrite H2, H3. rewrite (Radd_comm HR). rewrite (ARmul_0_l (Rth_ARth (Eqsth T) (Eq_ext (add K) (mul K) (opp K)) HR)).
      symmetry. apply (Radd_0_l HR).
    + clear -HR. revert HR. intro HR. exact (givens_id K HR a b c s).
Qed.
Print Assumptions C89_gvcompute.

Theorem C89_gvrotate_norm : forall T (K : num T), is_ring K -> forall c s y0 y1,
  add K (mul K c c) (mul K s s) = one K ->
  let '(v0, v1) := armas_gvrotate K c s y0 y1 in
  add K (mul K v0 v0) (mul K v1 v1) = add K (mul K y0 y0) (mul K y1 y1).
Proof.
  intros T K HR c s y0 y1 H. unfold armas_gvrotate. rewrite (givens_id K HR y0 y1 c s), H. apply (Rmul_1_l HR).
Qed.
Print Assumptions C89_gvrotate_norm.

(* rotating two vectors *)
Theorem C89_gvrot_vec : forall T (K : num T) L (m : Z -> T) X Y c s,
  isvec X -> isvec Y -> wf X -> wf Y -> allocated L X -> allocated L Y -> disjoint X Y -> vlen X = vlen Y ->
  exists m', armas_gvrot_vec K X Y c s L m = Some (0, m') /\
    (forall k, 0 <= k < vlen X -> velt m' X k = add K (mul K c (velt m X k)) (mul K s (velt m Y k)) /\
                                  velt m' Y k = sub K (mul K c (velt m Y k)) (mul K s (velt m X k))) /\
    (forall a, ~ cell X a -> ~ cell Y a -> m' a = m a).
Proof.
  intros T K L m X Y c s VX VY WX WY LX LY D N.
  destruct (gvrot_vec_wp K L m X Y c s VX VY WX WY LX LY D N) as (r & m' & R & -> & H). eauto.
Qed.
Print Assumptions C89_gvrot_vec.

(* rotating two rows.  Missing: r1 = r2, where the elements are multiplied by c, and col + ncol > A->cols
   (C89_gvleft_refuted) *)
Theorem C89_gvleft_partial : forall T (K : num T) L (m : Z -> T) A c s r1 r2 col ncol, wf A -> allocated L A ->
  0 <= r1 < rows A -> 0 <= r2 < rows A -> r1 <> r2 -> 0 <= col -> 0 <= ncol -> col + ncol <= cols A ->
  exists m', armas_gvleft K A c s r1 r2 col ncol L m = Some (tt, m') /\
    (forall i j, pos A i j -> elt m' A i j =
       if (col <=? j) && (j <? col + ncol) then rotrows K c s r1 r2 (elt m A) i j else elt m A i j) /\
    only_changes A m m'.
Proof.
  intros T K L m A c s r1 r2 col ncol W LA H1 H2 N H3 H4 H5. unfold armas_gvleft.
  destruct (cols A <=? col) eqn:E.
  - exists m. split; [reflexivity|]. split; [|intros a _; reflexivity]. intros i j (P1 & P2). replace (_ && _) with false by lia. reflexivity.
  - replace (r1 =? r2) with false by lia.
    destruct (gvleft_wp K L m A c s r1 r2 col ncol) as ([] & m' & R & H); auto. eauto.
Qed.
Print Assumptions C89_gvleft_partial.

Theorem C89_gvright_partial : forall T (K : num T) L (m : Z -> T) A c s c1 c2 row nrow, wf A -> allocated L A ->
  0 <= c1 < cols A -> 0 <= c2 < cols A -> c1 <> c2 -> 0 <= row -> 0 <= nrow -> row + nrow <= rows A ->
  exists m', armas_gvright K A c s c1 c2 row nrow L m = Some (tt, m') /\
    (forall i j, pos A i j -> elt m' A i j =
       if (row <=? i) && (i <? row + nrow) then rotcols K c s c1 c2 (elt m A) i j else elt m A i j) /\
    only_changes A m m'.
Proof.
  intros T K L m A c s c1 c2 row nrow W LA H1 H2 N H3 H4 H5. unfold armas_gvright.
  destruct (rows A <=? row) eqn:E.
  - exists m. split; [reflexivity|]. split; [|intros a _; reflexivity]. intros i j (P1 & P2). replace (_ && _) with false by lia. reflexivity.
  - replace (c1 =? c2) with false by lia.
    destruct (gvright_wp K L m A c s c1 c2 row nrow) as ([] & m' & R & H); auto. eauto.
Qed.
Print Assumptions C89_gvright_partial.

(* the last column or row is computed but not used: elements outside of the matrix are accessed *)
Theorem C89_gvleft_refuted : exists L A, wf A /\ allocated L A /\ rows A = 2 /\ cols A = 2 /\
  forall T (K : num T) (m : Z -> T) c s,
    armas_gvleft K A c s 0 1 0 3 L m = None /\ armas_gvright K A c s 0 1 0 3 L m = None /\
    (* with one row or column the loop ends at the edge of the matrix *)
    armas_gvleft K A c s 0 0 0 3 L m <> None /\ armas_gvright K A c s 0 0 0 3 L m <> None.
Proof.
  exists (fun a => (100 <=? a) && (a <? 104)), (mkview 100 2 2 2).
  split; [unfold wf; cbn; lia|]. split; [intros a (i & j & (H1 & H2) & ->); cbn [rows cols elems step] in *; lia|].
  split; [reflexivity|]. split; [reflexivity|]. intros T K m c s.
  split; [reflexivity|]. split; [reflexivity|]. split; vm_compute; discriminate.
Qed.
Print Assumptions C89_gvleft_refuted.

(* Missing: nrot up to the documented limit (C89_gvupdate_limit_refuted) *)
Theorem C89_gvupdate_forward_partial : forall T (K : num T), is_ring K -> eqb_ok K ->
  forall L (m : Z -> T) A start C S nrot flags (left : bool),
  has flags ARMAS_BACKWARD = false -> has flags ARMAS_LEFT = left -> upd_args L A C S left start nrot ->
  exists m', armas_gvupdate K A start C S nrot flags L m = Some (nrot, m') /\
    (forall i j, pos A i j -> elt m' A i j = rot_fwd K left start (velt m C) (velt m S) (Z.to_nat nrot) (elt m A) i j) /\
    only_changes A m m'.
Proof.
  intros T K HR HE L m A start C S nrot flags left FB FL H.
  destruct (upd_fwd_wp K HR HE L m A C S left start nrot H) as ([] & m' & R & H1).
  exists m'. split; [|exact H1]. unfold armas_gvupdate. rewrite FB, FL. cbv zeta in *.
  destruct H as (_ & _ & _ & _ & _ & _ & _ & _ & _ & _ & H2 & H3 & _ & _ & H4).
  destruct left.
  - replace (Z.max 0 (Z.min nrot (Z.min (rows A) (start + nrot) - start))) with nrot by lia. rewrite run_bind, R. reflexivity.
  - replace (Z.max 0 (Z.min nrot (Z.min (cols A) (start + nrot) - start))) with nrot by lia. rewrite run_bind, R. reflexivity.
Qed.
Print Assumptions C89_gvupdate_forward_partial.

(* Missing: the result is not the number of rotations (C89_gvupdate_backward_refuted) *)
Theorem C89_gvupdate_backward_partial : forall T (K : num T), is_ring K -> eqb_ok K ->
  forall L (m : Z -> T) A start C S nrot flags (left : bool),
  has flags ARMAS_BACKWARD = true -> has flags ARMAS_LEFT = left -> upd_args L A C S left start nrot ->
  exists r m', armas_gvupdate K A start C S nrot flags L m = Some (r, m') /\
    (forall i j, pos A i j -> elt m' A i j = rot_bwd K left start (velt m C) (velt m S) (Z.to_nat nrot) (elt m A) i j) /\
    only_changes A m m' /\ r = 0.
Proof.
  intros T K HR HE L m A start C S nrot flags left FB FL H.
  destruct (upd_bwd_wp K HR HE L m A C S left start nrot H) as ([] & m' & R & H1 & H1').
  exists 0, m'. split; [|auto]. unfold armas_gvupdate. rewrite FB, FL. cbv zeta in *.
  destruct H as (_ & _ & _ & _ & _ & _ & _ & _ & _ & _ & H2 & H3 & _ & _ & H4).
  destruct left.
  - replace (Z.min (rows A) (start + nrot)) with (start + nrot) by lia.
    replace (Z.max 0 (Z.min nrot (start + nrot - start))) with nrot by lia. rewrite run_bind, R. rewrite Z.sub_diag. reflexivity.
  - replace (Z.min (cols A) (start + nrot)) with (start + nrot) by lia.
    replace (Z.max 0 (Z.min nrot (start + nrot - start))) with nrot by lia. rewrite run_bind, R. rewrite Z.sub_diag. reflexivity.
Qed.
Print Assumptions C89_gvupdate_backward_partial.

(* the number of rotations applied is returned: false for every backward update with a rotation *)
Theorem C89_gvupdate_backward_refuted : forall T (K : num T), is_ring K -> eqb_ok K ->
  forall L (m : Z -> T) A start C S nrot flags (left : bool),
  has flags ARMAS_BACKWARD = true -> has flags ARMAS_LEFT = left -> upd_args L A C S left start nrot -> 0 < nrot ->
  exists r m', armas_gvupdate K A start C S nrot flags L m = Some (r, m') /\ r <> nrot.
Proof.
  intros T K HR HE L m A start C S nrot flags left FB FL H Hn.
  destruct (C89_gvupdate_backward_partial T K HR HE L m A start C S nrot flags left FB FL H) as (r & m' & R & _ & _ & ->).
  exists 0, m'. split; auto. lia.
Qed.
Print Assumptions C89_gvupdate_backward_refuted.

(* "min(nrot, A->rows-start) for left": with nrot = A->rows - start the last rotation uses row A->rows *)
Theorem C89_gvupdate_limit_refuted : exists L A C S (m : Z -> Z), wf A /\ allocated L A /\ isvec C /\ wf C /\ allocated L C /\
  isvec S /\ wf S /\ allocated L S /\ disjoint A C /\ disjoint A S /\ vlen C = 2 /\ vlen S = 2 /\ rows A = 2 /\ cols A = 2 /\
  armas_gvupdate Znum A 0 C S 2 ARMAS_LEFT L m = None /\ armas_gvupdate Znum A 0 C S 2 ARMAS_RIGHT L m = None /\
  armas_gvupdate Znum A 0 C S 2 (Z.lor ARMAS_LEFT ARMAS_BACKWARD) L m = None /\
  armas_gvupdate Znum A 0 C S 2 (Z.lor ARMAS_RIGHT ARMAS_BACKWARD) L m = None.
Proof.
  exists (fun a => (100 <=? a) && (a <? 104) || (200 <=? a) && (a <? 204)), (mkview 100 2 2 2), (mkview 200 2 2 1), (mkview 202 2 2 1),
    (fun a => a).
  unfold wf, isvec, allocated, disjoint, vlen. cbn [rows cols elems step].
  repeat (split; [first [lia | intros a (i & j & (H1 & H2) & ->); cbn [rows cols elems step] in *; lia |
     intros a (i & j & (H1 & H2) & ->) (i' & j' & (H3 & H4) & H5); cbn [rows cols elems step] in *; lia]|]).
  vm_compute. auto.
Qed.
Print Assumptions C89_gvupdate_limit_refuted.

(* a 4 by 3 matrix; three rotations of rows, two of columns *)
Definition gv_A : view := mkview 200 5 4 3.
Definition gv_C : view := mkview 300 3 3 1.
Definition gv_S : view := mkview 400 2 1 3.

Example C89_nonvacuous :
  upd_args cp_L gv_A gv_C gv_S true 0 3 /\ upd_args cp_L gv_A gv_C gv_S false 0 2 /\
  is_field Rnum /\ is_ordered Rnum /\ eqb_ok Rnum /\ sqrt_ok Rnum /\
  (match armas_gvupdate Znum gv_A 0 gv_C gv_S 3 (Z.lor ARMAS_LEFT ARMAS_BACKWARD) cp_L (fun a => a - 200) with
   | Some (r, m') => r = 0 /\ m' 203 = 102 * 3 - 204 * 2 | None => False end).
Proof.
  assert (H : forall (left : bool) n, 0 <= n <= 3 -> n < (if left then 4 else 3) -> upd_args cp_L gv_A gv_C gv_S left 0 n).
  { intros left n Hn Hl. unfold upd_args, wf, isvec, allocated, disjoint, vlen, cp_L, gv_A, gv_C, gv_S. cbn [rows cols elems step].
    repeat (split; [first [lia | intros a (i & j & (H1 & H2) & ->); cbn [rows cols elems step] in *; lia |
       intros a (i & j & (H1 & H2) & ->) (i' & j' & (H3 & H4) & H5); cbn [rows cols elems step] in *; lia]|]). destruct left; lia. }
  split; [apply H; cbn; lia|]. split; [apply H; cbn; lia|].
  split; [exact R_field|]. split; [exact R_ordered|]. split; [exact R_eqb|]. split; [exact R_sqrt_ok|].
  vm_compute. auto.
Qed.
