(* PEft.v: the error-free transformations of MEft.v in floating-point arithmetic *)
From Coq Require Import ZArith Reals Lra Lia Psatz.
From Flocq Require Import Core Plus_error Mult_error Relative Pff2Flocq.
From Verif Require Import MNum Inst SpecFloat PFloat MEft.
Local Open Scope R_scope.

(* what the proofs use of a twoprod: for floats x and y it returns floats h, p with h
   the rounded product and h + p the product, up to eps*|x*y| and a few subnormal units *)
Definition tp_ok (prec emin : Z) (eps : R) (TP : R -> R -> R * R) : Prop :=
  0 <= eps <= uro prec /\
  forall x y, float prec emin x -> float prec emin y ->
  float prec emin (fst (TP x y)) /\ float prec emin (snd (TP x y)) /\
  fst (TP x y) = rnd prec emin (x * y) /\
  Rabs (fst (TP x y) + snd (TP x y) - x * y) <= eps * Rabs (x * y) + 7 / 2 * omega emin.

Section Eft.
  Variable prec emin : Z.
  Hypothesis Hprec : (3 < prec)%Z.
  Hypothesis Hemin : (emin < 0)%Z.
  Local Notation flt := (float prec emin).
  Local Notation rn := (rnd prec emin).
  Local Notation u := (uro prec).
  Local Notation w := (omega emin).
  Local Notation G := (up prec).
  Local Notation K := (Fnum prec emin).
  Let Hpp := prec_pos prec Hprec.
  Existing Instance Hpp.

  Lemma twosum_spec : forall a b, flt a -> flt b ->
    exists x z, twosum K a b = (x, z) /\ flt x /\ flt z /\ x + z = a + b /\ Rabs z <= u * Rabs (a + b).
  Proof.
    intros a b Ha Hb. eexists _, _. split; [reflexivity|].
    split; [apply float_rnd; auto|]. split; [apply float_rnd; auto|].
    pose proof (twosum_exact prec emin Hprec Hemin a b Ha Hb) as E. cbn [add sub Fnum].
    split; [exact E|].
    match goal with |- Rabs ?z <= _ => replace z with (- (rn (a + b) - (a + b))) by lra end.
    rewrite Rabs_Ropp. apply rnd_add; auto.
  Qed.

  (* whatever the magnitudes *)
  Lemma fastsum_any : forall a b, flt a -> flt b ->
    exists x y, fastsum K a b = (x, y) /\ flt x /\ flt y /\ x = rn (a + b) /\
      Rabs (x + y - (a + b)) <= (3 * u + 2 * u * u) * Rabs b.
  Proof.
    intros a b Ha Hb. eexists _, _. split; [reflexivity|].
    split; [apply float_rnd; auto|]. split; [apply float_rnd; auto|]. split; [reflexivity|].
    cbn [add sub Fnum].
    set (x := rn (a + b)). pose proof (float_rnd prec emin Hprec (a + b)) as Fx. fold x in Fx.
    pose proof (u_pos prec) as Pu.
    assert (Ee : Rabs (x - (a + b)) <= Rabs b).
    { apply Rle_trans with (1 := rnd_near prec emin Hprec (a + b) a Ha).
      replace (a - (a + b)) with (- b) by ring. rewrite Rabs_Ropp. lra. }
    set (e := a + b - x). assert (He : Rabs e <= Rabs b).
    { unfold e. replace (a + b - x) with (- (x - (a + b))) by ring. rewrite Rabs_Ropp. exact Ee. }
    assert (E1 : Rabs (rn (a - x) - (a - x)) <= u * Rabs (a - x)).
    { replace (a - x) with (a + - x) by ring. apply rnd_add; auto. apply float_opp; auto. }
    set (z := rn (a - x)) in *. pose proof (float_rnd prec emin Hprec (a - x)) as Fz. fold z in Fz.
    assert (E2 : Rabs (rn (z + b) - (z + b)) <= u * Rabs (z + b)) by (apply rnd_add; auto).
    assert (E3 : Rabs (a - x) <= 2 * Rabs b).
    { replace (a - x) with (e + - b) by (unfold e; ring). apply Rle_trans with (1 := Rabs_triang _ _).
      rewrite Rabs_Ropp. lra. }
    assert (E4 : Rabs (z + b - e) <= 2 * u * Rabs b).
    { replace (z + b - e) with (z - (a - x)) by (unfold e; ring). apply Rle_trans with (1 := E1).
      replace (2 * u * Rabs b) with (u * (2 * Rabs b)) by ring. apply Rmult_le_compat_l; lra. }
    assert (E5 : Rabs (z + b) <= (1 + 2 * u) * Rabs b).
    { replace (z + b) with ((z + b - e) + e) by ring. apply Rle_trans with (1 := Rabs_triang _ _). lra. }
    replace (x + rn (z + b) - (a + b)) with ((rn (z + b) - (z + b)) + (z + b - e)) by (unfold e; ring).
    apply Rle_trans with (1 := Rabs_triang _ _).
    assert (u * Rabs (z + b) <= u * ((1 + 2 * u) * Rabs b)) by (apply Rmult_le_compat_l; lra). lra.
  Qed.

  Lemma fastsum_zero : forall b, flt b -> fastsum K 0 b = (b, 0).
  Proof.
    intros b Hb. unfold fastsum. cbn [add sub Fnum]. rewrite Rplus_0_l, (rnd_float prec emin b Hb).
    f_equal. rewrite Rminus_0_l, (rnd_float prec emin (- b)) by (apply float_opp; auto).
    rewrite Rplus_opp_l. apply rnd_0; auto.
  Qed.

  (* ------------------------------------------------------------- twoprod *)
  Lemma twoprod_dekker : forall s a b, s = (prec - Z.div2 prec)%Z -> flt a -> flt b ->
    let hp := twoprod K (bpow radix2 s + 1) a b in
    flt (fst hp) /\ flt (snd hp) /\ fst hp = rn (a * b) /\ Rabs (fst hp + snd hp - a * b) <= 7 / 2 * w /\
    (a * b = 0 \/ bpow radix2 (emin + 2 * prec - 1) <= Rabs (a * b) -> fst hp + snd hp = a * b).
  Proof.
    intros s a b -> Ha Hb. unfold twoprod. cbn [add sub mul Fnum fst snd]. cbv zeta. cbn [fst snd].
    split; [apply float_rnd; auto|]. split; [apply float_rnd; auto|]. split; [reflexivity|].
    pose proof (Dekker radix2 emin prec (fun z => negb (Z.even z)) ltac:(lia) Hemin b a Hb Ha (or_introl eq_refl)) as D.
    change (round radix2 (FLT_exp emin prec) ZnearestE) with rn in D.
    set (f := bpow radix2 (prec - Z.div2 prec) + 1) in *.
    assert (hi : forall x, rn (rn (x - rn (x * f)) + rn (x * f)) = rn (rn (f * x) - rn (rn (f * x) - x))).
    { intros x. rewrite (Rmult_comm f x). replace (x - rn (x * f)) with (- (rn (x * f) - x)) by ring.
      rewrite rnd_opp. f_equal. ring. }
    rewrite !hi in D. clear hi.
    set (a1 := rn (rn (f * a) - rn (rn (f * a) - a))) in *. set (b1 := rn (rn (f * b) - rn (rn (f * b) - b))) in *.
    set (a2 := rn (a - a1)) in *. set (b2 := rn (b - b1)) in *.
    rewrite (Rmult_comm b a), (Rmult_comm b1 a1), (Rmult_comm b1 a2), (Rmult_comm b2 a1), (Rmult_comm b2 a2) in D.
    set (x0 := rn (a * b)) in *.
    assert (N : forall x y, rn (- x + y) = - rn (x - y)) by (intros x y; rewrite <- rnd_opp; f_equal; ring).
    rewrite !N in D. 
    replace (rn (rn (a2 * b2) - rn (rn (rn (x0 - rn (a1 * b1)) - rn (a2 * b1)) - rn (a1 * b2))))
      with (- rn (rn (rn (rn (x0 - rn (a1 * b1)) - rn (a2 * b1)) - rn (a1 * b2)) - rn (a2 * b2)))
      by (rewrite <- rnd_opp; f_equal; ring).
    destruct D as [D1 D2]. split.
    - rewrite <- Rabs_Ropp. replace (- _) with (a * b - (x0 + - rn (rn (rn (rn (x0 - rn (a1 * b1)) - rn (a2 * b1)) - rn (a1 * b2)) - rn (a2 * b2)))) by ring.
      exact D2.
    - intros H. symmetry. apply D1, H.
  Qed.

  Lemma tp_dekker : forall s, s = (prec - Z.div2 prec)%Z -> tp_ok prec emin 0 (twoprod K (bpow radix2 s + 1)).
  Proof.
    intros s Hs. pose proof (u_pos prec). split; [lra|]. intros x y Hx Hy.
    destruct (twoprod_dekker s x y Hs Hx Hy) as (H1 & H2 & H3 & H4 & _). rewrite Rmult_0_l, Rplus_0_l. auto.
  Qed.

  Lemma twoprod_fma_spec : forall a b, flt a -> flt b ->
    let hp := twoprod_fma K (Ffma prec emin) a b in
    flt (fst hp) /\ flt (snd hp) /\ fst hp = rn (a * b) /\ Rabs (fst hp + snd hp - a * b) <= 7 / 2 * w /\
    (a * b = 0 \/ bpow radix2 (emin + 2 * prec - 1) <= Rabs (a * b) -> fst hp + snd hp = a * b).
  Proof.
    intros a b Ha Hb. unfold twoprod_fma, Ffma. cbn [add sub mul opp Fnum fst snd]. cbv zeta. cbn [fst snd].
    split; [apply float_rnd; auto|]. split; [apply float_rnd; auto|]. split; [reflexivity|].
    assert (D : a * b = 0 \/ bpow radix2 (emin + 2 * prec - 1) <= Rabs (a * b) ->
      rn (a * b) + rn (a * b + - rn (a * b)) = a * b).
    { intros H. rewrite (rnd_float prec emin (a * b + - rn (a * b))); [ring|].
      replace (a * b + - rn (a * b)) with (- (rn (a * b) - a * b)) by ring. apply float_opp.
      apply mult_error_FLT; auto; [typeclasses eauto|]. intros. destruct H; [contradiction|assumption]. }
    split; [|exact D].
    destruct (Rle_or_lt (bpow radix2 (emin + 2 * prec - 1)) (Rabs (a * b))) as [H|H].
    - rewrite D by auto. rewrite Rminus_diag_eq, Rabs_R0 by auto. pose proof (w_pos emin). lra.
    - replace (rn (a * b) + rn (a * b + - rn (a * b)) - a * b)
        with (rn (a * b + - rn (a * b)) - (a * b + - rn (a * b))) by ring.
      pose proof (rnd_any prec emin Hprec (a * b + - rn (a * b))) as R. apply Rle_trans with (1 := R).
      assert (R2 : u * Rabs (a * b + - rn (a * b)) <= u * (u * Rabs (a * b) + / 2 * w)).
      { apply Rmult_le_compat_l; [pose proof (u_pos prec); lra|].
        replace (a * b + - rn (a * b)) with (- (rn (a * b) - a * b)) by ring. rewrite Rabs_Ropp. apply rnd_any; auto. }
      assert (R3 : u * u * Rabs (a * b) <= / 2 * w).
      { apply Rle_trans with (u * u * bpow radix2 (emin + 2 * prec - 1)).
        - apply Rmult_le_compat_l; [|lra]. pose proof (u_pos prec). nra.
        - unfold uro, omega. rewrite <- !bpow_plus. replace (- prec + - prec + (emin + 2 * prec - 1))%Z with (emin + -1)%Z by ring.
          rewrite bpow_plus. change (bpow radix2 (-1)) with (/ 2). lra. }
      pose proof (u_le1 prec Hprec). pose proof (w_pos emin). pose proof (u_pos prec). nra.
  Qed.

  Lemma tp_fma : tp_ok prec emin 0 (twoprod_fma K (Ffma prec emin)).
  Proof.
    pose proof (u_pos prec). split; [lra|]. intros x y Hx Hy.
    destruct (twoprod_fma_spec x y Hx Hy) as (H1 & H2 & H3 & H4 & _). rewrite Rmult_0_l, Rplus_0_l. auto.
  Qed.

  (* ------------------------------------------ the compensated accumulator *)
  (* c is a rounded sum and a the sum, in floats, of what c lacks of S: A is the total
     magnitude of the terms of c, P of further terms given to a; kc, ka: rounding steps *)
  Definition acc (kc ka : Z) (ca : R * R) (S A P : R) : Prop :=
    (0 <= kc)%Z /\ flt (fst ca) /\ 0 <= A /\ 0 <= P /\ Rabs (fst ca) <= G kc * A /\
    exists E F, fst ca + E = S /\ F <= (G kc - 1) * A + P /\ fs prec emin ka (snd ca) E F 0.

  Lemma acc_0 : forall ka, (0 <= ka)%Z -> acc 0 ka (0, 0) 0 0 0.
  Proof.
    intros ka Hk. split; [lia|]. cbn [fst snd]. split; [apply float_0|]. split; [lra|]. split; [lra|]. rewrite Rabs_R0.
    split; [lra|]. exists 0, 0. split; [ring|]. split; [lra|]. apply fs_zero; auto.
  Qed.
  Lemma acc_mono : forall kc ka kc' ka' ca S A P, (kc <= kc')%Z -> (ka <= ka')%Z -> acc kc ka ca S A P -> acc kc' ka' ca S A P.
  Proof.
    intros kc ka kc' ka' ca S A P H H' (H1 & H2 & H3 & H4 & H5 & E & F & H6 & H7 & H8).
    pose proof (G_mono prec kc kc' H) as M.
    assert (G kc * A <= G kc' * A) by (apply Rmult_le_compat_r; auto).
    split; [lia|]. split; [auto|]. split; [auto|]. split; [auto|]. split; [lra|].
    exists E, F. split; [auto|]. split; [lra|]. eapply fs_mono; eauto.
  Qed.

  (* adding a float to the rounded sum; z is the error made *)
  Lemma acc_c : forall k c A A' c', Rabs c <= G k * A -> Rabs c' <= G k * A' -> (0 <= k)%Z -> 0 <= A -> 0 <= A' ->
    flt c -> flt c' ->
    exists x z, twosum K c c' = (x, z) /\ flt x /\ flt z /\ x + z = c + c' /\
      Rabs z <= u * (G k * (A + A')) /\ Rabs x <= G (k + 1) * (A + A').
  Proof.
    intros k c A A' c' H H' Hk PA PA' Fc Fc'. destruct (twosum_spec c c' Fc Fc') as (x & z & E & Fx & Fz & Es & Ez).
    exists x, z. pose proof (u_pos prec). pose proof (Rabs_triang c c').
    assert (Z1 : Rabs z <= u * (G k * (A + A'))).
    { apply Rle_trans with (1 := Ez). apply Rmult_le_compat_l; lra. }
    split; [auto|]. split; [auto|]. split; [auto|]. split; [auto|]. split; [auto|].
    rewrite G_S by lia. replace x with ((c + c') + - z) by lra.
    apply Rle_trans with (1 := Rabs_triang _ _). rewrite Rabs_Ropp. lra.
  Qed.

  Lemma G_abs : forall k x, Rabs x <= G k * Rabs x.
  Proof.
    intros k x. pose proof (G_ge1 prec k). pose proof (Rabs_pos x). rewrite <- (Rmult_1_l (Rabs x)) at 1.
    apply Rmult_le_compat_r; lra.
  Qed.

  Lemma acc_sum_ok : forall kc ka ca S A P x, acc kc ka ca S A P -> flt x ->
    acc (kc + 1) (ka + 1) (acc_sum K ca x) (S + x) (A + Rabs x) P.
  Proof.
    intros kc ka [c a] S A P x (H1 & H2 & H3 & H4 & H5 & E & F & H6 & H7 & H8) Fx. cbn [fst snd] in *.
    destruct (acc_c kc c A (Rabs x) x H5 (G_abs kc x) H1 H3 (Rabs_pos x) H2 Fx) as (y & z & Et & Fy & Fz & Es & Ez & Ey).
    unfold acc_sum. cbn [fst snd]. rewrite Et. cbn [add Fnum]. pose proof (Rabs_pos x).
    split; [lia|]. cbn [fst snd]. split; [auto|]. split; [lra|]. split; [auto|]. split; [auto|].
    exists (E + z), (F + Rabs z). split; [lra|]. split; [|apply fs_add_r; auto].
    rewrite G_S by lia. pose proof (G_ge1 prec kc). pose proof (u_pos prec).
    assert ((1 + u) * 1 <= (1 + u) * G kc) by (apply Rmult_le_compat_l; lra).
    assert (0 <= (G kc - 1) * Rabs x) by (apply Rmult_le_pos; lra). lra.
  Qed.

  (* adding the rounded sum of another accumulator, whose errors a already holds *)
  Lemma acc_sum_c : forall kc ka ca S A P n c1 A1, acc kc ka ca S A (P + (G n - 1) * A1) -> (n <= kc)%Z ->
    flt c1 -> Rabs c1 <= G n * A1 -> 0 <= A1 -> 0 <= P ->
    acc (kc + 1) (ka + 1) (acc_sum K ca c1) (S + c1) (A + A1) P.
  Proof.
    intros kc ka [c a] S A P n c1 A1 (H1 & H2 & H3 & H4 & H5 & E & F & H6 & H7 & H8) Hn F1 B1 PA PP. cbn [fst snd] in *.
    pose proof (G_mono prec n kc Hn) as M. assert (M1 : G n * A1 <= G kc * A1) by (apply Rmult_le_compat_r; lra).
    destruct (acc_c kc c A A1 c1 H5 ltac:(lra) H1 H3 PA H2 F1) as (y & z & Et & Fy & Fz & Es & Ez & Ey).
    unfold acc_sum. cbn [fst snd]. rewrite Et. cbn [add Fnum].
    split; [lia|]. cbn [fst snd]. split; [auto|]. split; [lra|]. split; [auto|]. split; [auto|].
    exists (E + z), (F + Rabs z). split; [lra|]. split; [|apply fs_add_r; auto].
    rewrite G_S by lia. lra.
  Qed.

  Section TP.
    Variable eps : R.
    Variable TP : R -> R -> R * R.
    Hypothesis HTP : tp_ok prec emin eps TP.

    (* h, p and their sum *)
    Lemma tp_facts : forall x y h p, flt x -> flt y -> TP x y = (h, p) ->
      flt h /\ flt p /\ Rabs h <= (1 + u) * Rabs (x * y) + w /\ Rabs p <= (G 2 - 1) * Rabs (x * y) + 4 * w /\
      Rabs (h + p - x * y) <= eps * Rabs (x * y) + 7 / 2 * w.
    Proof.
      intros x y h p Hx Hy E. destruct HTP as [He H]. specialize (H x y Hx Hy). rewrite E in H. cbn [fst snd] in H.
      destruct H as (F1 & F2 & E1 & E2). pose proof (rnd_any prec emin Hprec (x * y)) as R. rewrite <- E1 in R.
      pose proof (w_pos emin). pose proof (u_pos prec). pose proof (Rabs_pos (x * y)).
      split; [auto|]. split; [auto|]. split; [|split; [|auto]].
      - replace h with ((h - x * y) + x * y) by ring. apply Rle_trans with (1 := Rabs_triang _ _). lra.
      - replace p with ((h + p - x * y) + - (h - x * y)) by ring. apply Rle_trans with (1 := Rabs_triang _ _).
        rewrite Rabs_Ropp, G_2. assert (eps * Rabs (x * y) <= u * Rabs (x * y)) by (apply Rmult_le_compat_r; lra).
        assert (0 <= u * u * Rabs (x * y)) by (apply Rmult_le_pos; [nra|lra]). lra.
    Qed.

    Lemma acc_prod_ok : forall kc ka ca S A P x y h p, acc kc ka ca S A P -> flt x -> flt y -> (1 <= ka)%Z ->
      TP x y = (h, p) ->
      acc (kc + 1) (ka + 1) (acc_prod K TP ca x y) (S + (h + p)) (A + Rabs h) (P + Rabs p).
    Proof.
      intros kc ka [c a] S A P x y h p (H1 & H2 & H3 & H4 & H5 & E & F & H6 & H7 & H8) Fx Fy Hka Etp. cbn [fst snd] in *.
      destruct (tp_facts x y h p Fx Fy Etp) as (Fh & Fp & _).
      destruct (acc_c kc c A (Rabs h) h H5 (G_abs kc h) H1 H3 (Rabs_pos h) H2 Fh) as (s & z & Et & Fs & Fz & Es & Ez & Ey).
      unfold acc_prod. cbn [fst snd]. rewrite Etp, Et. cbn [add Fnum]. pose proof (Rabs_pos h). pose proof (Rabs_pos p).
      split; [lia|]. cbn [fst snd]. split; [auto|]. split; [lra|]. split; [lra|]. split; [auto|].
      exists (E + (z + p)), (F + (Rabs z + Rabs p)). split; [lra|]. split.
      - rewrite G_S by lia. pose proof (G_ge1 prec kc). pose proof (u_pos prec).
        assert ((1 + u) * 1 <= (1 + u) * G kc) by (apply Rmult_le_compat_l; lra).
        assert (0 <= (G kc - 1) * Rabs h) by (apply Rmult_le_pos; lra). lra.
      - replace 0 with (0 + 0) by ring. apply fs_add; auto.
        apply fs_mono with (0 + 1)%Z; [lia|]. apply fs_add_r; auto. apply fs_leaf; auto.
    Qed.
  End TP.

  (* the rounded sums of two accumulators put together, before their errors are *)
  Lemma acc_merge : forall kc ka c0 a0 S0 A0 P0 c1 a1 S1 A1 P1,
    acc kc ka (c0, a0) S0 A0 P0 -> acc kc ka (c1, a1) S1 A1 P1 ->
    exists x z E0 F0 E1 F1, twosum K c0 c1 = (x, z) /\ flt x /\ flt z /\ Rabs x <= G (kc + 1) * (A0 + A1) /\
      x + (E0 + E1 + z) = S0 + S1 /\ F0 + F1 + Rabs z <= (G (kc + 1) - 1) * (A0 + A1) + (P0 + P1) /\
      fs prec emin ka a0 E0 F0 0 /\ fs prec emin ka a1 E1 F1 0.
  Proof.
    intros kc ka c0 a0 S0 A0 P0 c1 a1 S1 A1 P1 (H1 & H2 & H3 & H4 & H5 & E0 & F0 & H6 & H7 & H8)
      (I1 & I2 & I3 & I4 & I5 & E1 & F1 & I6 & I7 & I8). cbn [fst snd] in *.
    destruct (acc_c kc c0 A0 A1 c1 H5 I5 H1 H3 I3 H2 I2) as (x & z & Et & Fx & Fz & Es & Ez & Ex).
    exists x, z, E0, F0, E1, F1. split; [auto|]. split; [auto|]. split; [auto|]. split; [auto|]. split; [lra|].
    split; [|auto]. rewrite G_S by lia. lra.
  Qed.

  (* the result: c and a added, with some further error e *)
  Lemma acc_final : forall c a E F k S, flt c -> flt a -> c + E = S -> fs prec emin k a E F 0 ->
    Rabs (rn (c + a) - S) <= u * Rabs S + (1 + u) * ((G k - 1) * F).
  Proof.
    intros c a E F k S Fc Fa Es (H1 & H2 & H3 & _ & H5). rewrite Rplus_0_r in H5.
    pose proof (rnd_add prec emin Hprec c a Fc Fa) as R. pose proof (u_pos prec).
    assert (Rabs (c + a) <= Rabs S + Rabs (a - E)).
    { replace (c + a) with (S + (a - E)) by lra. apply Rabs_triang. }
    assert (u * Rabs (c + a) <= u * (Rabs S + Rabs (a - E))) by (apply Rmult_le_compat_l; lra).
    assert ((1 + u) * Rabs (a - E) <= (1 + u) * ((G k - 1) * F)) by (apply Rmult_le_compat_l; lra).
    replace (rn (c + a) - S) with ((rn (c + a) - (c + a)) + (a - E)) by lra.
    apply Rle_trans with (1 := Rabs_triang _ _). lra.
  Qed.
End Eft.
