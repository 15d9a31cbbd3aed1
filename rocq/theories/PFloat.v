(* PFloat.v: rounding errors of single operations and of sums of rounded terms *)
From Coq Require Import ZArith Reals Lra Lia Psatz.
From Flocq Require Import Core Plus_error Mult_error Relative Pff2Flocq.
From Verif Require Import MNum Inst SpecFloat.
Local Open Scope R_scope.

Lemma choice_sym : forall x, negb (Z.even x) = negb (negb (Z.even (- (x + 1)))).
Proof.
  intros x. rewrite Z.even_opp, Z.even_add. destruct (Z.even x); reflexivity.
Qed.

Section Float.
  Variable prec emin : Z.
  Hypothesis Hprec : (3 < prec)%Z.
  Hypothesis Hemin : (emin < 0)%Z.
  Local Notation flt := (float prec emin).
  Local Notation rn := (rnd prec emin).
  Local Notation u := (uro prec).
  Local Notation w := (omega emin).
  Local Notation G := (up prec).

  Lemma prec_pos : Prec_gt_0 prec. Proof. unfold Prec_gt_0. lia. Qed.
  Existing Instance prec_pos.

  Lemma float_rnd : forall x, flt (rn x).
  Proof. intros x. apply generic_format_round; typeclasses eauto. Qed.
  Lemma rnd_float : forall x, flt x -> rn x = x.
  Proof. intros x H. apply round_generic; [typeclasses eauto|exact H]. Qed.
  Lemma float_0 : flt 0. Proof. apply generic_format_0. Qed.
  Lemma float_opp : forall x, flt x -> flt (- x). Proof. intros x H. apply generic_format_opp, H. Qed.
  Lemma float_abs : forall x, flt x -> flt (Rabs x). Proof. intros x H. apply generic_format_abs, H. Qed.
  Lemma rnd_0 : rn 0 = 0. Proof. apply rnd_float, float_0. Qed.
  Lemma rnd_opp : forall x, rn (- x) = - rn x.
  Proof. intros x. apply round_NE_opp. Qed.

  Lemma u_pos : 0 < u. Proof. apply bpow_gt_0. Qed.
  Lemma u_le1 : u <= / 16.
  Proof. unfold uro. change (/ 16) with (bpow radix2 (-4)). apply bpow_le. lia. Qed.
  Lemma w_pos : 0 < w. Proof. apply bpow_gt_0. Qed.

  Lemma u_ro_eq : u_ro radix2 prec = u.
  Proof.
    unfold u_ro, uro. rewrite bpow_plus. change (bpow radix2 1) with 2. field.
  Qed.

  Lemma rnd_add : forall x y, flt x -> flt y -> Rabs (rn (x + y) - (x + y)) <= u * Rabs (x + y).
  Proof.
    intros x y Hx Hy. destruct (FLT_plus_error_N_ex radix2 emin prec (fun z => negb (Z.even z)) x y Hx Hy) as (d & Hd & E).
    unfold rnd. rewrite E. replace ((x + y) * (1 + d) - (x + y)) with (d * (x + y)) by ring.
    rewrite Rabs_mult. apply Rmult_le_compat_r; [apply Rabs_pos|]. rewrite u_ro_eq in Hd. pose proof u_pos.
    apply Rle_trans with (1 := Hd). apply Rmult_le_reg_r with (1 + u); [lra|].
    unfold Rdiv. rewrite Rmult_assoc, Rinv_l by lra. nra.
  Qed.

  Lemma rnd_any : forall x, Rabs (rn x - x) <= u * Rabs x + / 2 * w.
  Proof.
    intros x. destruct (relative_error_N_FLT'_ex radix2 emin prec prec_pos (fun z => negb (Z.even z)) x)
      as (d & e & Hd & He & _ & E).
    unfold rnd. rewrite E. replace (x * (1 + d) + e - x) with (d * x + e) by ring.
    apply Rle_trans with (1 := Rabs_triang _ _). apply Rplus_le_compat; [|exact He].
    rewrite Rabs_mult. apply Rmult_le_compat_r; [apply Rabs_pos|]. rewrite u_ro_eq in Hd. pose proof u_pos.
    apply Rle_trans with (1 := Hd). apply Rmult_le_reg_r with (1 + u); [lra|].
    unfold Rdiv. rewrite Rmult_assoc, Rinv_l by lra. nra.
  Qed.

  Lemma rnd_near : forall x f, flt f -> Rabs (rn x - x) <= Rabs (f - x).
  Proof. intros x f Hf. apply (round_N_pt radix2 (FLT_exp emin prec) (fun z => negb (Z.even z)) x), Hf. Qed.

  (* ------------------------------------------------------- powers of 1+u *)
  Lemma G_0 : G 0 = 1. Proof. reflexivity. Qed.
  Lemma G_S : forall k, (0 <= k)%Z -> G (k + 1) = (1 + u) * G k.
  Proof. intros k Hk. unfold up. rewrite Z2Nat.inj_add by lia. rewrite Nat.add_comm. reflexivity. Qed.
  Lemma G_add : forall j k, (0 <= j)%Z -> (0 <= k)%Z -> G (j + k) = G j * G k.
  Proof. intros j k Hj Hk. unfold up. rewrite Z2Nat.inj_add by lia. apply pow_add. Qed.
  Lemma G_ge1 : forall k, 1 <= G k.
  Proof. intros k. unfold up. pose proof u_pos. apply pow_R1_Rle. lra. Qed.
  Lemma G_mono : forall j k, (j <= k)%Z -> G j <= G k.
  Proof. intros j k H. unfold up. pose proof u_pos. apply Rle_pow; [lra|]. lia. Qed.
  Lemma G_1 : G 1 = 1 + u. Proof. unfold up. change (Z.to_nat 1) with 1%nat. ring. Qed.
  Lemma G_2 : G 2 = (1 + u) * (1 + u). Proof. unfold up. change (Z.to_nat 2) with 2%nat. ring. Qed.

  (* -------------------------------------------- a sum computed in floats *)
  (* a approximates E, a sum of terms of total magnitude F, after at most k roundings
     of each, with absolute errors of total r before the last ones *)
  Definition fs (k : Z) (a E F r : R) : Prop :=
    flt a /\ (0 <= k)%Z /\ Rabs E <= F /\ 0 <= r /\ Rabs (a - E) <= G k * (F + r) - F.

  Lemma fs_leaf : forall x, flt x -> fs 0 x x (Rabs x) 0.
  Proof.
    intros x Hx. split; [auto|]. split; [lia|]. split; [lra|]. split; [lra|].
    rewrite G_0, Rminus_diag_eq, Rabs_R0; lra.
  Qed.
  Lemma fs_zero : forall k, (0 <= k)%Z -> fs k 0 0 0 0.
  Proof.
    intros k Hk. split; [apply float_0|]. split; [lia|]. rewrite Rabs_R0. split; [lra|]. split; [lra|].
    rewrite Rminus_diag_eq, Rabs_R0; lra.
  Qed.
  Lemma fs_mono : forall j k a E F r, (j <= k)%Z -> fs j a E F r -> fs k a E F r.
  Proof.
    intros j k a E F r H (H1 & H2 & H3 & H4 & H5). split; [auto|]. split; [lia|]. split; [auto|]. split; [auto|].
    pose proof (G_mono j k H). pose proof (Rabs_pos E).
    apply Rle_trans with (1 := H5). apply Rplus_le_compat_r. apply Rmult_le_compat_r; lra.
  Qed.
  Lemma fs_abs : forall k a E F r, fs k a E F r -> Rabs a <= G k * (F + r).
  Proof.
    intros k a E F r (H1 & H2 & H3 & H4 & H5). replace a with ((a - E) + E) by ring.
    apply Rle_trans with (1 := Rabs_triang _ _). lra.
  Qed.
  Lemma fs_add : forall k a E F r a' E' F' r', fs k a E F r -> fs k a' E' F' r' ->
    fs (k + 1) (rn (a + a')) (E + E') (F + F') (r + r').
  Proof.
    intros k a E F r a' E' F' r' H H'. pose proof (fs_abs _ _ _ _ _ H) as B. pose proof (fs_abs _ _ _ _ _ H') as B'.
    destruct H as (H1 & H2 & H3 & H4 & H5), H' as (H1' & _ & H3' & H4' & H5').
    split; [apply float_rnd|]. split; [lia|].
    split; [apply Rle_trans with (1 := Rabs_triang _ _); lra|]. split; [lra|].
    pose proof (rnd_add a a' H1 H1') as R.
    replace (rn (a + a') - (E + E')) with ((rn (a + a') - (a + a')) + ((a - E) + (a' - E'))) by ring.
    apply Rle_trans with (1 := Rabs_triang _ _). rewrite G_S by lia.
    pose proof (Rabs_triang (a - E) (a' - E')). pose proof (Rabs_triang a a'). pose proof u_pos.
    assert (u * Rabs (a + a') <= u * (G k * (F + r) + G k * (F' + r'))) by (apply Rmult_le_compat_l; lra).
    lra.
  Qed.
  Lemma fs_add_r : forall k a E F r x, fs k a E F r -> flt x ->
    fs (k + 1) (rn (a + x)) (E + x) (F + Rabs x) r.
  Proof.
    intros k a E F r x H Hx. replace r with (r + 0) by ring. apply fs_add; auto.
    apply fs_mono with 0%Z; [apply H|apply fs_leaf; auto].
  Qed.
  Lemma fs_scale : forall k a E F r x, fs k a E F r -> flt x ->
    fs (k + 1) (rn (x * a)) (x * E) (Rabs x * F) (Rabs x * r + / 2 * w).
  Proof.
    intros k a E F r x H Hx. pose proof (fs_abs _ _ _ _ _ H) as B.
    destruct H as (H1 & H2 & H3 & H4 & H5). pose proof (Rabs_pos x) as Px. pose proof w_pos as Pw. pose proof u_pos as Pu.
    split; [apply float_rnd|]. split; [lia|]. split; [rewrite Rabs_mult; apply Rmult_le_compat_l; auto|].
    split; [pose proof (Rmult_le_pos _ _ Px H4); lra|].
    pose proof (rnd_any (x * a)) as R. rewrite Rabs_mult in R.
    replace (rn (x * a) - x * E) with ((rn (x * a) - x * a) + x * (a - E)) by ring.
    apply Rle_trans with (1 := Rabs_triang _ _). rewrite Rabs_mult, G_S by lia.
    assert (Rabs x * Rabs (a - E) <= Rabs x * (G k * (F + r) - F)) by (apply Rmult_le_compat_l; auto).
    assert (u * (Rabs x * Rabs a) <= u * (Rabs x * (G k * (F + r)))).
    { apply Rmult_le_compat_l; [lra|]. apply Rmult_le_compat_l; auto. }
    pose proof (G_ge1 k). pose proof (G_ge1 (k + 1)) as P1. rewrite G_S in P1 by lia.
    assert (/ 2 * w <= (1 + u) * G k * (/ 2 * w)) by (rewrite <- (Rmult_1_l (/ 2 * w)) at 1; apply Rmult_le_compat_r; lra).
    lra.
  Qed.
  (* ----------------------------------------------------- twosum, fastsum *)
  Lemma twosum_exact : forall a b, flt a -> flt b ->
    rn (a + b) + rn (rn (a - rn (rn (a + b) - rn (rn (a + b) - a))) + rn (b - rn (rn (a + b) - a))) = a + b.
  Proof.
    intros a b Ha Hb. apply (TwoSum_correct emin prec (fun z => negb (Z.even z))); auto; try lia. apply choice_sym.
  Qed.
End Float.
