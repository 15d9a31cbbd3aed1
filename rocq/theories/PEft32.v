(* PEft32.v: twoprod of eft.h for float, whose split factor 2^14 + 1 leaves 10 and 13 bits
   and not twice 12: the product of the low parts is rounded, the rest is exact *)
From Coq Require Import ZArith Reals Lra Lia Psatz.
From Flocq Require Import Core Plus_error Mult_error Relative Pff2Flocq.
From Verif Require Import MNum Inst SpecFloat PFloat MEft PEft.
Local Open Scope R_scope.

Local Notation bp := (bpow radix2).

(* x is a multiple of 2^e *)
Definition mult (e : Z) (x : R) : Prop := exists z, x = IZR z * bp e.

Lemma mult_mono : forall e e' x, (e' <= e)%Z -> mult e x -> mult e' x.
Proof.
  intros e e' x H (z & ->). exists (z * 2 ^ (e - e'))%Z. rewrite mult_IZR. 
  replace (IZR (2 ^ (e - e'))) with (bp (e - e')) by (rewrite <- IZR_Zpower by lia; reflexivity).
  rewrite Rmult_assoc, <- bpow_plus. do 2 f_equal. lia.
Qed.
Lemma mult_sub : forall e x y, mult e x -> mult e y -> mult e (x - y).
Proof. intros e x y (z & ->) (t & ->). exists (z - t)%Z. rewrite minus_IZR. ring. Qed.
Lemma mult_mul : forall e f x y, mult e x -> mult f y -> mult (e + f) (x * y).
Proof. intros e f x y (z & ->) (t & ->). exists (z * t)%Z. rewrite mult_IZR, bpow_plus. ring. Qed.

Section F.
  Variable prec emin : Z.
  Hypothesis Hprec : (3 < prec)%Z.
  Local Notation flt := (float prec emin).
  Local Notation rn := (rnd prec emin).
  Let Hpp := prec_pos prec Hprec.
  Existing Instance Hpp.

  Lemma float_mult : forall p x, (0 < p)%Z -> generic_format radix2 (FLT_exp emin p) x ->
    mult (FLT_exp emin p (mag radix2 x)) x.
  Proof. intros p x Hp H. exists (Ztrunc (scaled_mantissa radix2 (FLT_exp emin p) x)). exact H. Qed.

  Lemma mult_float : forall e x, (emin <= e)%Z -> mult e x -> Rabs x < bp (e + prec) -> flt x.
  Proof.
    intros e x He (z & ->) B. apply generic_format_FLT. exists (Float radix2 z e); cbn [Defs.Fnum Fexp]; auto.
    apply lt_IZR. rewrite abs_IZR, (IZR_Zpower radix2) by lia.
    apply Rmult_lt_reg_r with (bp e); [apply bpow_gt_0|]. rewrite <- bpow_plus, (Z.add_comm prec e).
    rewrite Rabs_mult in B. rewrite (Rabs_pos_eq (bp e)) in B by apply bpow_ge_0. exact B.
  Qed.

  Lemma rnd_mult : forall e x, (emin <= e)%Z -> mult e x -> mult e (rn x).
  Proof.
    intros e x He H. destruct (Z_le_dec e (FLT_exp emin prec (mag radix2 x))) as [L|L].
    - apply mult_mono with (FLT_exp emin prec (mag radix2 x)); auto.
      eexists. unfold rnd, round, F2R. cbn [Defs.Fnum Fexp]. reflexivity.
    - rewrite rnd_float; auto. apply mult_float with e; auto. unfold FLT_exp in L.
      apply Rlt_le_trans with (1 := bpow_mag_gt radix2 x). apply bpow_le. lia.
  Qed.

  Lemma rnd_emin : forall x, mult emin (rn x).
  Proof.
    intros x. apply mult_mono with (FLT_exp emin prec (mag radix2 x)); [unfold FLT_exp; lia|].
    eexists. unfold rnd, round, F2R. cbn [Defs.Fnum Fexp]. reflexivity.
  Qed.

  (* half a unit of the last place *)
  Lemma rnd_half : forall x k, Rabs x < bp k -> Rabs (rn x - x) <= / 2 * (bp (Z.max (k - prec) emin)).
  Proof.
    intros x k B. apply Rle_trans with (1 := error_le_half_ulp radix2 (FLT_exp emin prec) _ x).
    apply Rmult_le_compat_l; [lra|]. destruct (Req_dec x 0) as [->|Nx].
    - rewrite ulp_FLT_0 by auto. apply bpow_le. lia.
    - rewrite ulp_neq_0 by auto. unfold cexp, FLT_exp. apply bpow_le.
      pose proof (mag_le_bpow radix2 x k Nx B). lia.
  Qed.
End F.

Section F32.
  Variable emin : Z.
  Hypothesis Hemin : (emin < 0)%Z.
  Local Notation flt := (float 24 emin).
  Local Notation rn := (rnd 24 emin).
  Local Notation w := (omega emin).
  Local Notation K := (Fnum 24 emin).
  Let H24 : (3 < 24)%Z. Proof. reflexivity. Qed.
  Let Hpp := prec_pos 24 H24.
  Existing Instance Hpp.
  Local Notation fct := (bp 14 + 1).

  Definition hi (a : R) : R := rn (rn (fct * a) - rn (rn (fct * a) - a)).
  Definition lo (a : R) : R := rn (a - hi a).

  (* the high part has 10 bits, the low part what remains *)
  Lemma split_spec : forall a, flt a -> a <> 0 -> let k := mag radix2 a : Z in
    hi a + lo a = a /\ mult (k - 10) (hi a) /\ mult emin (hi a) /\ mult (k - 24) (lo a) /\ mult emin (lo a) /\
    Rabs (hi a) <= bp k /\ Rabs (lo a) <= bp (k - 11).
  Proof.
    intros a Fa Na k.
    assert (E : rn (rn (a - rn (a * fct)) + rn (a * fct)) = hi a).
    { unfold hi. rewrite (Rmult_comm fct a). replace (a - rn (a * fct)) with (- (rn (a * fct) - a)) by ring.
      rewrite rnd_opp. f_equal. ring. }
    pose proof (Veltkamp_Even radix2 emin 24 (fun z => negb (Z.even z)) 14 ltac:(lia) ltac:(lia) ltac:(lia) ltac:(lia) a Fa eq_refl) as V.
    pose proof (Veltkamp_tail radix2 emin 24 (fun z => negb (Z.even z)) 14 ltac:(lia) ltac:(lia) ltac:(lia) ltac:(lia) a Fa) as [T _].
    cbv zeta in V, T. change (round radix2 (FLT_exp emin 24) ZnearestE) with rn in V, T.
    rewrite E in V, T. change (24 - 14)%Z with 10%Z in V. fold (lo a) in T.
    assert (P10 : Prec_gt_0 10) by reflexivity.
    assert (Mh : mult (Z.max (k - 10) emin) (hi a)).
    { rewrite V. unfold round, F2R. cbn [Defs.Fnum Fexp]. eexists. reflexivity. }
    assert (Ma : mult (Z.max (k - 24) emin) a) by (apply (float_mult emin 24); [lia|exact Fa]).
    assert (Ml : mult (Z.max (k - 24) emin) (lo a)).
    { replace (lo a) with (a - hi a) by lra. apply mult_sub; [exact Ma|]. apply mult_mono with (2 := Mh). lia. }
    split; [lra|]. split; [apply mult_mono with (2 := Mh); lia|]. split; [apply mult_mono with (2 := Mh); lia|].
    split; [apply mult_mono with (2 := Ml); lia|]. split; [apply mult_mono with (2 := Ml); lia|].
    split.
    - rewrite V. apply abs_round_le_generic; try typeclasses eauto.
      + apply generic_format_bpow. unfold FLT_exp. assert (emin <= k)%Z; [|lia].
        assert (bp emin <= Rabs a).
        { destruct Ma as (z & Ez). destruct (Z.eq_dec z 0) as [->|Nz]; [rewrite Rmult_0_l in Ez; contradiction|].
          rewrite Ez, Rabs_mult, (Rabs_pos_eq (bp _)) by apply bpow_ge_0. rewrite <- (Rmult_1_l (bp emin)).
          apply Rmult_le_compat; [lra|apply bpow_ge_0| |apply bpow_le; lia]. rewrite <- abs_IZR. apply IZR_le. lia. }
        assert (bp emin < bp k) by (apply Rle_lt_trans with (1 := H), bpow_mag_gt). apply lt_bpow in H0. lia.
      + apply Rlt_le, bpow_mag_gt.
    - destruct (Z_le_dec (k - 10) emin) as [L|L].
      + (* the number has no more than 10 bits *)
        assert (Eh : hi a = a).
        { rewrite V. change (rnd 10 emin a = a). apply rnd_float. apply (mult_float 10 emin eq_refl emin); [lia| |].
          - apply mult_mono with (2 := Ma). lia.
          - apply Rlt_le_trans with (1 := bpow_mag_gt radix2 a). fold k. apply bpow_le. lia. }
        replace (lo a) with 0 by lra. rewrite Rabs_R0. apply bpow_ge_0.
      + replace (lo a) with (- (hi a - a)) by lra. rewrite Rabs_Ropp, V. change (round radix2 (FLT_exp emin 10) ZnearestE a) with (rnd 10 emin a).
        apply Rle_trans with (1 := rnd_half 10 emin eq_refl a k (bpow_mag_gt radix2 a)).
        rewrite Z.max_l by lia. replace (k - 11)%Z with (k - 10 + -1)%Z by lia. rewrite (bpow_plus radix2 (k - 10)). change (bp (-1)) with (/ 2). lra.
  Qed.

  Lemma omega_rel : forall e k, (e <= k)%Z -> bp e <= bp k. Proof. intros. apply bpow_le. auto. Qed.

  (* rounding a multiple of 2^e of at most 2^(e+24) *)
  Lemma prod_rnd : forall e x y, mult e x -> Rabs x <= bp (e + y) -> (y <= 23)%Z -> (emin < e + 1)%Z ->
    rn x = x.
  Proof.
    intros e x y M B Hy He. apply rnd_float. apply (mult_float 24 emin eq_refl e); [lia|auto|].
    apply Rle_lt_trans with (1 := B). apply bpow_lt. lia.
  Qed.

  Lemma twoprod32 : forall a b, flt a -> flt b -> let hp := twoprod K fct a b in
    flt (fst hp) /\ flt (snd hp) /\ fst hp = rn (a * b) /\
    Rabs (fst hp + snd hp - a * b) <= bp (-44) * Rabs (a * b) + 7 / 2 * w.
  Proof.
    intros a b Fa Fb. unfold twoprod. cbn [add sub mul Fnum]. cbv zeta. cbn [fst snd].
    split; [apply float_rnd; auto|]. split; [apply float_rnd; auto|]. split; [reflexivity|].
    change (rn (rn (fct * a) - rn (rn (fct * a) - a))) with (hi a). change (rn (rn (fct * b) - rn (rn (fct * b) - b))) with (hi b).
    change (rn (a - hi a)) with (lo a). change (rn (b - hi b)) with (lo b).
    pose proof (w_pos emin) as Pw.
    assert (Z0 : hi 0 = 0 /\ lo 0 = 0).
    { unfold lo, hi. repeat rewrite ?Rmult_0_r, ?rnd_0, ?Rminus_0_r. split; reflexivity. }
    destruct Z0 as [Z0 Z1].
    destruct (Req_dec a 0) as [->|Na].
    { rewrite Z0, Z1. repeat rewrite ?Rmult_0_l, ?Rmult_0_r, ?rnd_0, ?Rminus_0_r.
      rewrite Rplus_0_l, Rabs_R0. lra. }
    destruct (Req_dec b 0) as [->|Nb].
    { rewrite Z0, Z1. repeat rewrite ?Rmult_0_l, ?Rmult_0_r, ?rnd_0, ?Rminus_0_r.
      rewrite Rplus_0_l, Rabs_R0. lra. }
    destruct (split_spec a Fa Na) as (Ea & Ah & Ahe & Al & Ale & Bah & Bal).
    destruct (split_spec b Fb Nb) as (Eb & Bh & Bhe & Bl & Ble & Bbh & Bbl).
    set (ka := mag radix2 a : Z) in *. set (kb := mag radix2 b : Z) in *. set (m := (ka + kb)%Z).
    set (a1 := hi a) in *. set (a2 := lo a) in *. set (b1 := hi b) in *. set (b2 := lo b) in *.
    assert (LA : bp (ka - 1) <= Rabs a) by (apply bpow_mag_le; auto).
    assert (LB : bp (kb - 1) <= Rabs b) by (apply bpow_mag_le; auto).
    assert (LAB : bp (m - 2) <= Rabs (a * b)).
    { rewrite Rabs_mult. replace (m - 2)%Z with (ka - 1 + (kb - 1))%Z by (unfold m; lia). rewrite bpow_plus.
      apply Rmult_le_compat; auto using bpow_ge_0. }
    assert (UAB : Rabs (a * b) < bp m).
    { rewrite Rabs_mult. unfold m. rewrite bpow_plus. apply Rmult_lt_compat; auto using Rabs_pos; apply bpow_mag_gt. }
    set (x0 := rn (a * b)).
    (* magnitudes in terms of M *)
    set (M := bp m) in *. assert (PM : 0 < M) by apply bpow_gt_0.
    assert (BM : forall j, bp (m + j) = M * bp j) by (intros; apply bpow_plus).
    assert (MB : forall i j x y, Rabs x <= bp i -> Rabs y <= bp j -> Rabs (x * y) <= bp (i + j)).
    { intros i j x y Hx Hy. rewrite Rabs_mult, bpow_plus. apply Rmult_le_compat; auto using Rabs_pos. }
    assert (B11 : Rabs (a1 * b1) <= bp (m + 0)) by (replace (m + 0)%Z with (ka + kb)%Z by (unfold m; lia); auto).
    assert (B21 : Rabs (a2 * b1) <= bp (m + -11)) by (replace (m + -11)%Z with (ka - 11 + kb)%Z by (unfold m; lia); auto).
    assert (B12 : Rabs (a1 * b2) <= bp (m + -11)) by (replace (m + -11)%Z with (ka + (kb - 11))%Z by (unfold m; lia); auto).
    assert (B22 : Rabs (a2 * b2) <= bp (m + -22)) by (replace (m + -22)%Z with (ka - 11 + (kb - 11))%Z by (unfold m; lia); auto).
    assert (M11 : mult (m - 20) (a1 * b1)) by (replace (m - 20)%Z with (ka - 10 + (kb - 10))%Z by (unfold m; lia); apply mult_mul; auto).
    assert (M21 : mult (m - 34) (a2 * b1)) by (replace (m - 34)%Z with (ka - 24 + (kb - 10))%Z by (unfold m; lia); apply mult_mul; auto).
    assert (M12 : mult (m - 34) (a1 * b2)) by (replace (m - 34)%Z with (ka - 10 + (kb - 24))%Z by (unfold m; lia); apply mult_mul; auto).
    assert (M22 : mult (m - 48) (a2 * b2)) by (replace (m - 48)%Z with (ka - 24 + (kb - 24))%Z by (unfold m; lia); apply mult_mul; auto).
    (* products: their unit and error *)
    assert (PR : forall e x, mult e x -> mult (Z.max e emin) (rn x)).
    { intros e x Hx. destruct (Z_le_dec emin e) as [L|L].
      - rewrite Z.max_l by lia. apply rnd_mult; auto.
      - rewrite Z.max_r by lia. apply rnd_emin. }
    assert (U24 : uro 24 = bp (-24)) by reflexivity.
    assert (ER : forall e j x, mult e x -> Rabs x <= bp (e + j) -> (j <= 23)%Z -> Rabs (rn x - x) <= 3 / 4 * w).
    { intros e j x Hx Bx Hj. destruct (Z_le_dec emin e) as [L|L].
      - rewrite (prod_rnd e x j) by (auto; lia). rewrite Rminus_diag_eq, Rabs_R0 by auto. lra.
      - apply Rle_trans with (1 := rnd_any 24 emin eq_refl x). rewrite U24.
        assert (Rabs x <= bp (emin + 22)) by (apply Rle_trans with (1 := Bx), bpow_le; lia).
        assert (bp (-24) * Rabs x <= bp (-24) * bp (emin + 22)) by (apply Rmult_le_compat_l; [apply bpow_ge_0|auto]).
        rewrite <- bpow_plus in H0. replace (-24 + (emin + 22))%Z with (emin + -2)%Z in H0 by lia. rewrite bpow_plus in H0.
        change (bp (-2)) with (/ 4) in H0. fold w in H0. lra. }
    pose proof (ER (m - 20)%Z 20%Z _ M11 ltac:(replace (m - 20 + 20)%Z with (m + 0)%Z by lia; auto) ltac:(lia)) as E11.
    pose proof (ER (m - 34)%Z 23%Z _ M21 ltac:(replace (m - 34 + 23)%Z with (m + -11)%Z by lia; auto) ltac:(lia)) as E21.
    pose proof (ER (m - 34)%Z 23%Z _ M12 ltac:(replace (m - 34 + 23)%Z with (m + -11)%Z by lia; auto) ltac:(lia)) as E12.
    pose proof (PR _ _ M11) as R11. pose proof (PR _ _ M21) as R21. pose proof (PR _ _ M12) as R12. pose proof (PR _ _ M22) as R22.
    pose proof (rnd_any 24 emin eq_refl (a2 * b2)) as E22. rewrite U24 in E22.
    set (p11 := rn (a1 * b1)) in *. set (p21 := rn (a2 * b1)) in *. set (p12 := rn (a1 * b2)) in *. set (p22 := rn (a2 * b2)) in *.
    assert (R0 : mult (Z.max (m - 25) emin) x0).
    { apply mult_mono with (FLT_exp emin 24 (mag radix2 (a * b))).
      - unfold FLT_exp. assert (m - 2 < mag radix2 (a * b))%Z; [|lia].
        apply mag_gt_bpow. exact LAB.
      - eexists. unfold x0, rnd, round, F2R. cbn [Defs.Fnum Fexp]. reflexivity. }
    pose proof (rnd_half 24 emin eq_refl (a * b) m UAB) as E0. fold x0 in E0.
    assert (W0 : bp (Z.max (m - 24) emin) <= M * bp (-24) + w).
    { pose proof (bpow_ge_0 radix2 (-24)). destruct (Z.max_spec (m - 24) emin) as [[_ ->]|[_ ->]].
      - change (bp emin) with w. nra.
      - replace (m - 24)%Z with (m + -24)%Z by lia. rewrite BM. lra. }
    rewrite BM in B21, B12, B22.
    assert (LM : M * bp (-2) <= Rabs (a * b)) by (rewrite <- BM; exact LAB).
    assert (UNIT : forall j, M * bp (- j) <= bp (Z.max (m - j) emin) /\ w <= bp (Z.max (m - j) emin)).
    { intros j. split; [rewrite <- BM|change w with (bp emin)]; apply bpow_le; lia. }
    assert (EX : forall j x c, mult (Z.max (m - j) emin) x -> Rabs x <= c * bp (Z.max (m - j) emin) -> c < 16777216 -> rn x = x).
    { intros j x c Hm Hb Hc. apply rnd_float. apply (mult_float 24 emin eq_refl (Z.max (m - j) emin)); [lia|auto|].
      apply Rle_lt_trans with (1 := Hb). rewrite bpow_plus. rewrite Rmult_comm. apply Rmult_lt_compat_l; [apply bpow_gt_0|].
      change (bp 24) with 16777216. exact Hc. }
    change (bp (-24)) with (/ 16777216) in *. change (bp (-11)) with (/ 2048) in *. change (bp (-22)) with (/ 4194304) in *.
    change (bp (-2)) with (/ 4) in *. change (bp (-44)) with (/ 17592186044416).
    apply Rabs_le_inv in E11, E21, E12, E22, E0, B21, B12, B22.
    assert (N22 : Rabs (a2 * b2) <= M * / 4194304) by (apply Rabs_le; lra).
    assert (ID : a * b = a1 * b1 + a2 * b1 + a1 * b2 + a2 * b2) by (rewrite <- Ea, <- Eb; ring).
    (* the three subtractions and the last addition are exact *)
    assert (S1 : rn (x0 - p11) = x0 - p11).
    { destruct (UNIT 25%Z) as [U1 U2]. change (bp (- (25))) with (/ 33554432) in U1.
      apply (EX 25%Z _ 100000); [|apply Rabs_le; split|]; try lra.
      apply mult_sub; [exact R0|]. apply mult_mono with (2 := R11). lia. }
    rewrite S1.
    assert (S2 : rn (x0 - p11 - p21) = x0 - p11 - p21).
    { destruct (UNIT 34%Z) as [U1 U2]. change (bp (- (34))) with (/ 17179869184) in U1.
      apply (EX 34%Z _ 10000000); [|apply Rabs_le; split|]; try lra.
      apply mult_sub; [apply mult_sub|]; [apply mult_mono with (2 := R0)|apply mult_mono with (2 := R11)|exact R21]; lia. }
    rewrite S2.
    assert (S3 : rn (x0 - p11 - p21 - p12) = x0 - p11 - p21 - p12).
    { destruct (UNIT 34%Z) as [U1 U2]. change (bp (- (34))) with (/ 17179869184) in U1.
      apply (EX 34%Z _ 10000000); [|apply Rabs_le; split|]; try lra.
      apply mult_sub; [apply mult_sub; [apply mult_sub|]|]; [apply mult_mono with (2 := R0)|apply mult_mono with (2 := R11)|exact R21|exact R12]; lia. }
    rewrite S3.
    assert (S4 : rn (p22 - (x0 - p11 - p21 - p12)) = p22 - (x0 - p11 - p21 - p12)).
    { destruct (UNIT 48%Z) as [U1 U2]. change (bp (- (48))) with (/ 281474976710656) in U1.
      apply (EX 48%Z _ 10000000); [|apply Rabs_le; split|]; try lra.
      apply mult_sub; [exact R22|].
      apply mult_sub; [apply mult_sub; [apply mult_sub|]|]; [apply mult_mono with (2 := R0)|apply mult_mono with (2 := R11)|apply mult_mono with (2 := R21)|apply mult_mono with (2 := R12)]; lia. }
    rewrite S4. apply Rabs_le. split; lra.
  Qed.

  (* the float type without FMA: the low part misses at most 16 u^2 |ab| *)
  Lemma tp_float : tp_ok 24 emin (bp (-44)) (twoprod K fct).
  Proof.
    split.
    - split; [apply bpow_ge_0|]. apply bpow_le. lia.
    - intros a b Fa Fb. exact (twoprod32 a b Fa Fb).
  Qed.
End F32.
