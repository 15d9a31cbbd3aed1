(* PExt.v: the extended precision vector functions in floating-point arithmetic *)
From Coq Require Import ZArith Reals Lra Lia Bool ZifyBool Psatz.
From Flocq Require Import Core.
From Verif Require Import Mem MView SpecView PView PSub Hoare MFlags MCopy PUpd PCopy
  MNum SpecNum PSum PBlas1 Inst SpecFloat PFloat MEft PEft.
Local Open Scope R_scope.
Local Open Scope prog_scope.

Ltac zl := Lia.lia.
Local Notation "'SUM' n f" := (vsum Rnum n f) (at level 10, n at level 9, f at level 9).

Lemma R_ring : is_ring Rnum. Proof. exact (Field_theory.F_R R_field). Qed.
Lemma SUM_0 : forall f, SUM 0 f = 0. Proof. intros f. reflexivity. Qed.
Lemma SUM_S : forall n f, (0 <= n)%Z -> SUM (n + 1) f = SUM n f + f n.
Proof. intros n f H. apply (vsum_S Rnum); auto. Qed.
Lemma SUM_S4 : forall n f, (0 <= n)%Z ->
  SUM (n + 4) f = SUM n f + f (n + 0)%Z + f (n + 1)%Z + f (n + 2)%Z + f (n + 3)%Z.
Proof.
  intros n f H. replace (n + 4)%Z with (n + 0 + 1 + 1 + 1 + 1)%Z by zl. rewrite !SUM_S by zl.
  replace (n + 0 + 1 + 1 + 1)%Z with (n + 3)%Z by zl. replace (n + 0 + 1 + 1)%Z with (n + 2)%Z by zl.
  replace (n + 0 + 1)%Z with (n + 1)%Z by zl. rewrite Z.add_0_r. reflexivity.
Qed.
Lemma SUM_S2 : forall n f, (0 <= n)%Z -> SUM (n + 2) f = SUM n f + f (n + 0)%Z + f (n + 1)%Z.
Proof.
  intros n f H. replace (n + 2)%Z with (n + 1 + 1)%Z by zl. rewrite !SUM_S by zl. rewrite Z.add_0_r. reflexivity.
Qed.
Lemma SUM_pos : forall n f, (forall k, (0 <= k < n)%Z -> 0 <= f k) -> 0 <= SUM n f.
Proof.
  intros n f. destruct (Z_le_dec n 0). { intros _. rewrite (vsum_0 Rnum) by zl. cbn. lra. }
  revert f. apply (vsum_ind (fun n => forall f, (forall k, (0 <= k < n)%Z -> 0 <= f k) -> 0 <= SUM n f)); try zl.
  - intros f _. rewrite SUM_0. lra.
  - intros k Hk IH f Hf. rewrite SUM_S by auto. pose proof (IH f ltac:(intros; apply Hf; zl)).
    pose proof (Hf k ltac:(zl)). lra.
Qed.
Lemma SUM_le : forall n f g, (forall k, (0 <= k < n)%Z -> f k <= g k) -> SUM n f <= SUM n g.
Proof.
  intros n f g. destruct (Z_le_dec n 0). { intros _. rewrite !(vsum_0 Rnum) by zl. cbn. lra. }
  apply (vsum_ind (fun n => (forall k, (0 <= k < n)%Z -> f k <= g k) -> SUM n f <= SUM n g)); try zl.
  - intros _. rewrite !SUM_0. lra.
  - intros k Hk IH Hf. rewrite !SUM_S by auto. pose proof (IH ltac:(intros; apply Hf; zl)).
    pose proof (Hf k ltac:(zl)). lra.
Qed.
Lemma SUM_abs : forall n f, Rabs (SUM n f) <= SUM n (fun k => Rabs (f k)).
Proof.
  intros n f. destruct (Z_le_dec n 0). { rewrite !(vsum_0 Rnum) by zl. cbn. rewrite Rabs_R0. lra. }
  apply (vsum_ind (fun n => Rabs (SUM n f) <= SUM n (fun k => Rabs (f k)))); try zl.
  - rewrite !SUM_0, Rabs_R0. lra.
  - intros k Hk IH. rewrite !SUM_S by auto. apply Rle_trans with (1 := Rabs_triang _ _). lra.
Qed.
Lemma SUM_plus : forall n f g, SUM n (fun k => f k + g k) = SUM n f + SUM n g.
Proof. intros n f g. apply (vsum_add Rnum R_ring). Qed.
Lemma SUM_mult : forall n c f, SUM n (fun k => c * f k) = c * SUM n f.
Proof. intros n c f. apply (vsum_mul_l Rnum R_ring). Qed.
Lemma SUM_const : forall n c, (0 <= n)%Z -> SUM n (fun _ => c) = IZR n * c.
Proof.
  intros n c Hn. revert n Hn. apply (vsum_ind (fun n => SUM n (fun _ => c) = IZR n * c)).
  - rewrite SUM_0. ring.
  - intros n Hn IH. rewrite SUM_S, IH, plus_IZR by auto. ring.
Qed.
Lemma SUM_ext : forall n f g, (forall k, (0 <= k < n)%Z -> f k = g k) -> SUM n f = SUM n g.
Proof. intros. apply (vsum_ext Rnum); auto. Qed.

Section Ext.
  Variable prec emin : Z.
  Hypothesis Hprec : (3 < prec)%Z.
  Hypothesis Hemin : (emin < 0)%Z.
  Local Notation flt := (float prec emin).
  Local Notation rn := (rnd prec emin).
  Local Notation u := (uro prec).
  Local Notation w := (omega emin).
  Local Notation G := (up prec).
  Local Notation K := (Fnum prec emin).
  Local Notation acc := (acc prec emin).

  (* four accumulators with the total f of their terms *)
  Definition acc4 (kc ka : Z) (st : (R * R) * (R * R) * (R * R) * (R * R)) (S A : R) : Prop :=
    let '(s0, s1, s2, s3) := st in
    exists S0 S1 S2 S3 A0 A1 A2 A3, acc kc ka s0 S0 A0 0 /\ acc kc ka s1 S1 A1 0 /\ acc kc ka s2 S2 A2 0 /\
      acc kc ka s3 S3 A3 0 /\ S0 + S1 + S2 + S3 = S /\ A0 + A1 + A2 + A3 = A.

  Definition hl_ok (n : Z) (S A : R) (hl : R * R) : Prop :=
    exists E F, flt (fst hl) /\ fst hl + E = S /\ F <= (G (n + 3) - 1) * A /\ fs prec emin (n + 6) (snd hl) E F 0.

  Lemma acc4_final : forall n st S A, (0 <= n)%Z -> acc4 n n st S A ->
    let '((c0, a0), (c1, a1), (c2, a2), (c3, a3)) := st in
    hl_ok n S A (acc_sum K (acc_sum K (acc_sum K (c0, rn (a0 + rn (rn (a1 + a2) + a3))) c1) c2) c3).
  Proof.
    intros n [[[[c0 a0] [c1 a1]] [c2 a2]] [c3 a3]] S A Hn (S0 & S1 & S2 & S3 & A0 & A1 & A2 & A3 & H0 & H1 & H2 & H3 & <- & <-).
    destruct H0 as (_ & Fc0 & PA0 & _ & B0 & E0 & F0 & Q0 & R0 & X0), H1 as (_ & Fc1 & PA1 & _ & B1 & E1 & F1 & Q1 & R1 & X1),
      H2 as (_ & Fc2 & PA2 & _ & B2 & E2 & F2 & Q2 & R2 & X2), H3 as (_ & Fc3 & PA3 & _ & B3 & E3 & F3 & Q3 & R3 & X3).
    cbn [fst snd] in *.
    assert (M : fs prec emin (n + 3) (rn (a0 + rn (rn (a1 + a2) + a3))) (E0 + ((E1 + E2) + E3)) (F0 + ((F1 + F2) + F3)) 0).
    { replace 0 with (0 + ((0 + 0) + 0)) by ring. replace (n + 3)%Z with (n + 1 + 1 + 1)%Z by zl.
      apply fs_add; auto; [apply fs_mono with n; [zl|auto]|]. apply fs_add; auto; [|apply fs_mono with n; [zl|auto]].
      apply fs_add; auto. }
    pose proof (G_ge1 prec n) as Gn.
    assert (P1 : 0 <= (G n - 1) * A1) by (apply Rmult_le_pos; lra).
    assert (P2 : 0 <= (G n - 1) * A2) by (apply Rmult_le_pos; lra).
    assert (P3 : 0 <= (G n - 1) * A3) by (apply Rmult_le_pos; lra).
    assert (I : acc n (n + 3) (c0, rn (a0 + rn (rn (a1 + a2) + a3))) (S0 + E1 + E2 + E3) A0
      (0 + (G n - 1) * A3 + (G n - 1) * A2 + (G n - 1) * A1)).
    { split; [auto|]. cbn [fst snd]. split; [auto|]. split; [auto|]. split; [lra|]. split; [auto|].
      eexists _, _. split; [|split; [|exact M]]; lra. }
    apply (acc_sum_c prec emin Hprec Hemin) with (n := n) (c1 := c1) (A1 := A1) in I; auto; try zl; try lra.
    apply (acc_sum_c prec emin Hprec Hemin) with (n := n) (c1 := c2) (A1 := A2) in I; auto; try zl; try lra.
    apply (acc_sum_c prec emin Hprec Hemin) with (n := n) (c1 := c3) (A1 := A3) in I; auto; try zl; try lra.
    destruct I as (_ & Fc & PA & _ & _ & E & F & Q & R & X).
    replace (n + 1 + 1 + 1)%Z with (n + 3)%Z in * by zl. replace (n + 3 + 1 + 1 + 1)%Z with (n + 6)%Z in * by zl.
    exists E, F. split; [auto|]. split; [lra|]. split; [lra|auto].
  Qed.

  Lemma ext_sum2s_wp : forall L X n m (Q : R * R -> (Z -> R) -> Prop),
    isvec X -> wf X -> allocated L X -> (0 <= n <= vlen X)%Z ->
    (forall k, (0 <= k < n)%Z -> flt (velt m X k)) ->
    (forall hl, hl_ok n (SUM n (velt m X)) (SUM n (fun k => Rabs (velt m X k))) hl -> Q hl m) ->
    wp (ext_sum2s K X n) L m Q.
  Proof.
    intros L X n m Q VX WX LX Hn HF HQ. unfold ext_sum2s. wbind.
    set (f := velt m X) in *. set (g := fun k => Rabs (f k)) in *.
    apply wp_unroll4_acc with (I := fun i st m' => m' = m /\ acc4 i i st (SUM i f) (SUM i g)); auto; try zl.
    - split; auto. exists 0, 0, 0, 0, 0, 0, 0, 0. cbn [zero Fnum]. rewrite !SUM_0.
      pose proof (acc_0 prec emin 0 ltac:(zl)) as A00. do 4 (split; [exact A00|]). split; ring.
    - intros i [[[s0 s1] s2] s3] m' Hi Hi3 (-> & S0 & S1 & S2 & S3 & A0 & A1 & A2 & A3 & H0 & H1 & H2 & H3 & ES & EA).
      do 4 (vrd X). apply wp_ret. split; auto.
      assert (Y : forall j, (0 <= j < 4)%Z -> flt (f (i + j)%Z)) by (intros; apply HF; zl).
      pose proof (acc_sum_ok prec emin Hprec Hemin _ _ _ _ _ _ (f (i + 0)%Z) H0 (Y 0%Z ltac:(zl))) as H0'.
      pose proof (acc_sum_ok prec emin Hprec Hemin _ _ _ _ _ _ (f (i + 1)%Z) H1 (Y 1%Z ltac:(zl))) as H1'.
      pose proof (acc_sum_ok prec emin Hprec Hemin _ _ _ _ _ _ (f (i + 2)%Z) H2 (Y 2%Z ltac:(zl))) as H2'.
      pose proof (acc_sum_ok prec emin Hprec Hemin _ _ _ _ _ _ (f (i + 3)%Z) H3 (Y 3%Z ltac:(zl))) as H3'.
      do 8 eexists. repeat (split; [eapply acc_mono; [| |eassumption]; zl|]).
      rewrite !SUM_S4 by zl. rewrite <- ES, <- EA. unfold g. split; ring.
    - intros i [[[s0 s1] s2] s3] m' Hi (-> & S0 & S1 & S2 & S3 & A0 & A1 & A2 & A3 & H0 & H1 & H2 & H3 & ES & EA).
      vrd X. apply wp_ret. replace (m (vad X (i + 0))) with (f i) by (unfold f; rewrite velt_vad; do 2 f_equal; zl).
      pose proof (HF i ltac:(zl)) as Y. fold (f i) in Y.
      destruct (n - i =? 3)%Z, (n - i =? 2)%Z; (split; [reflexivity|]); rewrite !SUM_S by zl; rewrite <- ES, <- EA; unfold acc4.
      all: first [ pose proof (acc_sum_ok prec emin Hprec Hemin _ _ _ _ _ _ (f i) H0 Y) as H0' 
                 | idtac ].
      1,2: exists (S0 + f i), S1, S2, S3, (A0 + Rabs (f i)), A1, A2, A3.
      3: exists S0, (S1 + f i), S2, S3, A0, (A1 + Rabs (f i)), A2, A3; 
         pose proof (acc_sum_ok prec emin Hprec Hemin _ _ _ _ _ _ (f i) H1 Y) as H1'.
      4: exists S0, S1, (S2 + f i), S3, A0, A1, (A2 + Rabs (f i)), A3; 
         pose proof (acc_sum_ok prec emin Hprec Hemin _ _ _ _ _ _ (f i) H2 Y) as H2'.
      all: repeat (split; [eapply acc_mono; [| |eassumption]; zl|]); unfold g; split; ring.
    - intros st m' (-> & I). pose proof (acc4_final n st _ _ ltac:(zl) I) as J.
      destruct st as [[[[c0 a0] [c1 a1]] [c2 a2]] [c3 a3]]. apply wp_ret. apply HQ, J.
  Qed.

  Lemma ext_asum2s_wp : forall L X n m (Q : R * R -> (Z -> R) -> Prop),
    isvec X -> wf X -> allocated L X -> (0 <= n <= vlen X)%Z ->
    (forall k, (0 <= k < n)%Z -> flt (velt m X k)) ->
    (forall hl, hl_ok n (SUM n (fun k => Rabs (velt m X k))) (SUM n (fun k => Rabs (velt m X k))) hl -> Q hl m) ->
    wp (ext_asum2s K X n) L m Q.
  Proof.
    intros L X n m Q VX WX LX Hn HF HQ. unfold ext_asum2s. wbind.
    set (g := fun k => Rabs (velt m X k)) in *. change (abs K) with Rabs.
    set (I2 := fun (i : Z) (st : (R * R) * (R * R)) => exists S0 S1 A0 A1, acc i i (fst st) S0 A0 0 /\
      acc i i (snd st) S1 A1 0 /\ S0 + S1 = SUM i g /\ A0 + A1 = SUM i g).
    assert (Y : forall j, (0 <= j < n)%Z -> flt (g j)) by (intros; apply float_abs, HF; zl).
    assert (YA : forall j, Rabs (g j) = g j) by (intros; apply Rabs_Rabsolu).
    apply wp_for_acc with (I := fun i st m' => m' = m /\ I2 i st); try zl.
    - split; auto. exists 0, 0, 0, 0. rewrite !SUM_0. cbn [zero Fnum fst snd].
      pose proof (acc_0 prec emin 0 ltac:(zl)) as A00. do 2 (split; [exact A00|]). split; ring.
    - intros i [s0 s1] m' k Hk Ek Hi (-> & S0 & S1 & A0 & A1 & H0 & H1 & ES & EA). cbn [fst snd] in *.
      do 2 (vrd X). apply wp_ret. split; auto.
      pose proof (acc_sum_ok prec emin Hprec Hemin _ _ _ _ _ _ (g (i + 0)%Z) H0 (Y (i + 0)%Z ltac:(zl))) as H0'.
      pose proof (acc_sum_ok prec emin Hprec Hemin _ _ _ _ _ _ (g (i + 1)%Z) H1 (Y (i + 1)%Z ltac:(zl))) as H1'.
      rewrite YA in H0', H1'. cbn [fst snd].
      do 4 eexists. repeat (split; [eapply acc_mono; [| |eassumption]; zl|]).
      rewrite !SUM_S2 by zl. split; lra.
    - intros [s0 s1] m' (-> & I). cbv zeta. wbind.
      assert (C : forall st, I2 n st -> wp (let '((c0, a0), (c1, a1)) := st in
        let '(c2, z0) := twosum K c0 c1 in ret (c2, add K a0 (add K a1 z0))) L m Q).
      { clear s0 s1 I. intros [[c0 a0] [c1 a1]] (S0 & S1 & A0 & A1 & H0 & H1 & ES & EA). cbn [fst snd] in *.
        destruct (acc_merge prec emin Hprec Hemin _ _ _ _ _ _ _ _ _ _ _ _ H0 H1)
          as (x & z & E0 & F0 & E1 & F1 & Et & Fx & Fz & Bx & Es & EF & X0 & X1).
        rewrite Et. apply wp_ret. apply HQ. cbn [add Fnum]. exists (E0 + (E1 + z)), (F0 + (F1 + Rabs z)). cbn [fst snd].
        split; [auto|]. split; [lra|]. split.
        - assert (0 <= SUM n g) by (apply SUM_pos; intros; apply Rabs_pos).
          pose proof (G_mono prec (n + 1) (n + 3) ltac:(zl)).
          assert (G (n + 1) * SUM n g <= G (n + 3) * SUM n g) by (apply Rmult_le_compat_r; auto).
          rewrite EA in EF. lra.
        - apply fs_mono with (n + 1 + 1)%Z; [zl|]. replace 0 with (0 + 0) by ring. apply fs_add; auto.
          + apply fs_mono with n; [zl|auto].
          + apply fs_add_r; auto. }
      destruct (loop_end_2 n ltac:(zl)) as [E|E]; rewrite E in *.
      + rewrite Z.eqb_refl. cbn [negb]. apply wp_ret. apply (C (s0, s1)). exact I.
      + assert (0 <= n - 1)%Z.
        { destruct (Z_le_dec 0 (n - 1)); [auto|]. rewrite loop_end_0 in E by zl. zl. }
        replace (n - 1 =? n)%Z with false by zl. cbn [negb]. vrd X. apply wp_ret. eapply (C (_, _)).
        destruct I as (S0 & S1 & A0 & A1 & H0 & H1 & ES & EA). cbn [fst snd] in *.
        replace (Rabs (m (vad X (n - 1 + 0)))) with (g (n - 1)%Z) by (unfold g; rewrite velt_vad; do 3 f_equal; zl).
        pose proof (acc_sum_ok prec emin Hprec Hemin _ _ _ _ _ _ (g (n - 1)%Z) H0 (Y (n - 1)%Z ltac:(zl))) as H0'.
        rewrite YA in H0'.
        exists (S0 + g (n - 1)%Z), S1, (A0 + g (n - 1)%Z), A1. cbn [fst snd].
        do 2 (split; [eapply acc_mono; [| |eassumption]; zl|]).
        assert (ESn : SUM n g = SUM (n - 1) g + g (n - 1)%Z) by (rewrite <- SUM_S by zl; f_equal; zl).
        rewrite ESn. split; lra.
  Qed.

  Lemma hl_result : forall n S A hl, (0 <= n)%Z -> 0 <= A -> hl_ok n S A hl ->
    Rabs (rn (fst hl + snd hl) - S) <= u * Rabs S + (1 + u) * ((G (n + 6) - 1) * ((G (n + 3) - 1) * A)).
  Proof.
    intros n S A [h l] Hn PA (E & F & Fh & ES & EF & X). cbn [fst snd] in *.
    apply Rle_trans with (1 := acc_final prec emin Hprec h l E F (n + 6) S Fh (proj1 X) ES X).
    apply Rplus_le_compat_l. pose proof (u_pos prec). apply Rmult_le_compat_l; [lra|].
    pose proof (G_ge1 prec (n + 6)). apply Rmult_le_compat_l; lra.
  Qed.

  Lemma ext_sum_one : forall L m (TP : R -> R -> R * R) res X flags,
    isvec X -> wf X -> allocated L X -> (forall k, (0 <= k < vlen X)%Z -> flt (velt m X k)) ->
    let f := fun k => if has flags ARMAS_ABS then Rabs (velt m X k) else velt m X k in
    exists r, armas_ext_sum K TP res 1 X flags L m = Some ((0%Z, r), m) /\ flt r /\
      Rabs (r - SUM (vlen X) f) <= u * Rabs (SUM (vlen X) f) +
        (1 + u) * ((G (vlen X + 6) - 1) * ((G (vlen X + 3) - 1) * SUM (vlen X) (fun k => Rabs (velt m X k)))).
  Proof.
    intros L m TP res X flags VX WX LX HF f.
    assert (PA : 0 <= SUM (vlen X) (fun k => Rabs (velt m X k))) by (apply SUM_pos; intros; apply Rabs_pos).
    assert (W : wp (armas_ext_sum K TP res 1 X flags) L m (fun r m' => m' = m /\ fst r = 0%Z /\ flt (snd r) /\
      Rabs (snd r - SUM (vlen X) f) <= u * Rabs (SUM (vlen X) f) +
        (1 + u) * ((G (vlen X + 6) - 1) * ((G (vlen X + 3) - 1) * SUM (vlen X) (fun k => Rabs (velt m X k)))))).
    { unfold armas_ext_sum. apply isvector_isvec in VX as E. rewrite E. cbn [negb]. change (armas_size X) with (vlen X).
      assert (E1 : eqb K 1 (one K) = true) by (cbn; unfold Reqb; destruct (Req_EM_T 1 1); auto; contradiction).
      rewrite E1. cbn [negb]. pose proof (vlen_nonneg X WX) as Pn. wbind. unfold f.
      destruct (has flags ARMAS_ABS).
      - apply ext_asum2s_wp; auto; try zl. intros [h l] H. apply wp_ret. cbn [fst snd]. split; [auto|]. split; [auto|].
        split; [apply float_rnd; auto|]. apply (hl_result _ _ _ _ Pn PA H).
      - apply ext_sum2s_wp; auto; try zl. intros [h l] H. apply wp_ret. cbn [fst snd]. split; [auto|]. split; [auto|].
        split; [apply float_rnd; auto|]. apply (hl_result _ _ _ _ Pn PA H). }
    destruct W as ([z r] & m' & E & -> & Ez & Fr & B). cbn [fst snd] in *. rewrite Ez in E. exists r. auto.
  Qed.

  Section TP.
    Variable eps : R.
    Variable TP : R -> R -> R * R.
    Hypothesis HTP : tp_ok prec emin eps TP.

    Lemma adot_loop_wp : forall L X Y n m (Q : R * R -> (Z -> R) -> Prop),
      isvec X -> isvec Y -> wf X -> wf Y -> allocated L X -> allocated L Y -> (0 <= n <= vlen X)%Z -> (n <= vlen Y)%Z ->
      (forall k, (0 <= k < n)%Z -> flt (velt m X k)) -> (forall k, (0 <= k < n)%Z -> flt (velt m Y k)) ->
      let tp := fun k => TP (velt m X k) (velt m Y k) in
      (forall sc, acc n (n + 1) sc (SUM n (fun k => fst (tp k) + snd (tp k))) (SUM n (fun k => Rabs (fst (tp k))))
         (SUM n (fun k => Rabs (snd (tp k)))) -> Q sc m) ->
      wp (for_acc 0 n 1 (fun i sc =>
              x <- rd (elems X + (i + 0) * vinc X) ;;
              y <- rd (elems Y + (i + 0) * vinc Y) ;;
              ret (acc_prod K TP sc x y)) (zero K, zero K)) L m Q.
    Proof.
      intros L X Y n m Q VX VY WX WY LX LY Hn Hn' FX FY tp HQ.
      apply wp_for1_acc with (I := fun i sc m' => m' = m /\
        acc i (i + 1) sc (SUM i (fun k => fst (tp k) + snd (tp k))) (SUM i (fun k => Rabs (fst (tp k))))
         (SUM i (fun k => Rabs (snd (tp k))))).
      - split; auto. rewrite !SUM_0. cbn [zero Fnum]. apply acc_0. zl.
      - intros i sc m' Hi (-> & I). vrd X. vrd Y. apply wp_ret. split; auto. rewrite !SUM_S by zl.
        replace (m (vad X (i + 0))) with (velt m X i) by (rewrite velt_vad; do 2 f_equal; zl).
        replace (m (vad Y (i + 0))) with (velt m Y i) by (rewrite velt_vad; do 2 f_equal; zl).
        apply acc_prod_ok with (eps := eps); auto; [zl|]. fold (tp i). destruct (tp i). reflexivity.
      - intros sc m' (-> & I). rewrite Z.max_r in I by zl. apply HQ, I.
    Qed.

    (* totals of the rounded products and their errors *)
    Lemma tp_sums : forall n (x y : Z -> R), (0 <= n)%Z ->
      (forall k, (0 <= k < n)%Z -> flt (x k)) -> (forall k, (0 <= k < n)%Z -> flt (y k)) ->
      let tp := fun k => TP (x k) (y k) in let B := SUM n (fun k => Rabs (x k * y k)) in
      SUM n (fun k => Rabs (fst (tp k))) <= (1 + u) * B + IZR n * w /\
      SUM n (fun k => Rabs (snd (tp k))) <= (G 2 - 1) * B + IZR n * (4 * w) /\
      Rabs (SUM n (fun k => fst (tp k) + snd (tp k)) - SUM n (fun k => x k * y k)) <= eps * B + IZR n * (7 / 2 * w).
    Proof.
      intros n x y Hn Fx Fy tp B.
      assert (T : forall k, (0 <= k < n)%Z -> Rabs (fst (tp k)) <= (1 + u) * Rabs (x k * y k) + w /\
        Rabs (snd (tp k)) <= (G 2 - 1) * Rabs (x k * y k) + 4 * w /\
        Rabs (fst (tp k) + snd (tp k) - x k * y k) <= eps * Rabs (x k * y k) + 7 / 2 * w).
      { intros k Hk. destruct (tp k) as [h p] eqn:E. cbn [fst snd].
        destruct (tp_facts prec emin Hprec eps TP HTP (x k) (y k) h p (Fx k Hk) (Fy k Hk) E) as (_ & _ & H). auto. }
      split; [|split].
      - apply Rle_trans with (1 := SUM_le n _ _ (fun k Hk => proj1 (T k Hk))).
        rewrite SUM_plus, SUM_mult, SUM_const by auto. apply Rle_refl.
      - apply Rle_trans with (1 := SUM_le n _ _ (fun k Hk => proj1 (proj2 (T k Hk)))).
        rewrite SUM_plus, SUM_mult, SUM_const by auto. apply Rle_refl.
      - replace (SUM n (fun k => fst (tp k) + snd (tp k)) - SUM n (fun k => x k * y k))
          with (SUM n (fun k => fst (tp k) + snd (tp k) - x k * y k)).
        + apply Rle_trans with (1 := SUM_abs _ _).
          apply Rle_trans with (1 := SUM_le n _ _ (fun k Hk => proj2 (proj2 (T k Hk)))).
          rewrite SUM_plus, SUM_mult, SUM_const by auto. apply Rle_refl.
        + transitivity (SUM n (fun k => (fst (tp k) + snd (tp k)) + (-1) * (x k * y k))).
          * apply SUM_ext. intros. ring.
          * rewrite SUM_plus, SUM_mult. ring.
    Qed.

    Definition adot_bound (n : Z) (alpha D B r : R) : Prop :=
      Rabs (r - alpha * D) <= u * Rabs (alpha * D) +
        (1 + u) * (((G (n + 6) - 1) * (G (n + 6) - 1) + eps * (1 + G (n + 6))) * (Rabs alpha * B) +
                   5 * (G (n + 6) * G (n + 6)) * ((IZR n * Rabs alpha + 1) * w)).

    Lemma adot_final : forall n alpha sc S A P D B, (0 <= n)%Z -> flt alpha -> acc n (n + 1) sc S A P -> 0 <= B ->
      A <= (1 + u) * B + IZR n * w -> P <= (G 2 - 1) * B + IZR n * (4 * w) ->
      Rabs (S - D) <= eps * B + IZR n * (7 / 2 * w) ->
      let '(s0, c0) := sc in
      let '(h0, p0) := TP s0 alpha in
      let '(s1, z0) := fastsum K 0 h0 in
      let c1 := rn (rn (rn (0 + p0) + rn (alpha * c0)) + z0) in
      let '(h, l) := fastsum K s1 c1 in
      adot_bound n alpha D B (rn (h + l)).
    Proof.
      intros n alpha [s c] S A P D B Hn Fal I PB HA HP HD. destruct I as (_ & Fs & PA & PP & Bs & E & F & ES & EF & X).
      cbn [fst snd] in *. destruct (TP s alpha) as [h0 p0] eqn:Et.
      destruct (tp_facts prec emin Hprec eps TP HTP s alpha h0 p0 Fs Fal Et) as (Fh0 & Fp0 & _ & Bp0 & Bt).
      rewrite (fastsum_zero prec emin h0 Fh0). cbv zeta.
      rewrite Rplus_0_l, (rnd_float prec emin p0 Fp0), Rplus_0_r, (rnd_float prec emin (rn _) (float_rnd prec emin Hprec _)).
      assert (Y : fs prec emin (n + 3) (rn (p0 + rn (alpha * c))) (p0 + alpha * E) (Rabs p0 + Rabs alpha * F) (0 + (Rabs alpha * 0 + / 2 * w))).
      { replace (n + 3)%Z with (n + 2 + 1)%Z by zl. apply fs_add; auto.
        - apply fs_mono with 0%Z; [zl|]. apply fs_leaf; auto.
        - replace (n + 2)%Z with (n + 1 + 1)%Z by zl. apply fs_scale; auto. }
      set (c1 := rn (p0 + rn (alpha * c))) in *.
      destruct (fastsum_any prec emin Hprec h0 c1 Fh0 (proj1 Y)) as (x & y & Ef & Fx & Fy & _ & Bf). rewrite Ef.
      replace (0 + (Rabs alpha * 0 + / 2 * w)) with (/ 2 * w) in Y by ring.
      pose proof (fs_abs _ _ _ _ _ _ _ Y) as Bc1. destruct Y as (_ & _ & _ & _ & Bd).
      set (F' := Rabs p0 + Rabs alpha * F) in *.
      (* abbreviations *)
      pose proof (u_pos prec) as Pu. pose proof (u_le1 prec Hprec) as U1. pose proof (w_pos emin) as Pw. pose proof (Rabs_pos alpha) as Pal.
      destruct HTP as [[Pe Ue] _].
      assert (Pn : 0 <= IZR n) by (apply IZR_le; auto).
      pose proof (G_ge1 prec n) as Gn.
      assert (EG : forall j, (0 <= j)%Z -> G (n + j) = G j * G n) by (intros j Hj; rewrite Z.add_comm; apply G_add; auto).
      assert (G3 : G 3 = (1 + u) * (1 + u) * (1 + u)) by (unfold up; change (Z.to_nat 3) with 3%nat; ring).
      assert (G6 : G (n + 6) = G 3 * G (n + 3)) by (replace (n + 6)%Z with (3 + (n + 3))%Z by zl; apply G_add; zl).
      set (g := G (n + 6)) in *.
      pose proof (G_ge1 prec (n + 6)) as Gg. fold g in Gg.
      (* the computed low part against the exact one, with the error of the last fastsum *)
      assert (T1 : Rabs (x + y - (h0 + (p0 + alpha * E))) <= g * (F' + / 2 * w) - F').
      { replace (x + y - (h0 + (p0 + alpha * E))) with ((x + y - (h0 + c1)) + (c1 - (p0 + alpha * E))) by ring.
        apply Rle_trans with (1 := Rabs_triang _ _).
        assert ((3 * u + 2 * u * u) * Rabs c1 <= (G 3 - 1) * (G (n + 3) * (F' + / 2 * w))).
        { apply Rmult_le_compat; [nra|apply Rabs_pos| |auto]. rewrite G3.
          assert (0 <= u * u) by nra. assert (0 <= u * u * u) by nra. lra. }
        rewrite G6. lra. }
      assert (T2 : Rabs (h0 + (p0 + alpha * E) - alpha * D) <= eps * (Rabs alpha * (G n * A)) + 7 / 2 * w + Rabs alpha * (eps * B + IZR n * (7 / 2 * w))).
      { replace (h0 + (p0 + alpha * E) - alpha * D) with ((h0 + p0 - s * alpha) + alpha * (S - D)) by (rewrite <- ES; ring).
        apply Rle_trans with (1 := Rabs_triang _ _). rewrite Rabs_mult. apply Rplus_le_compat.
        - apply Rle_trans with (1 := Bt). apply Rplus_le_compat_r. apply Rmult_le_compat_l; [auto|].
          rewrite Rabs_mult, Rmult_comm. apply Rmult_le_compat_l; auto.
        - apply Rmult_le_compat_l; auto. }
      (* magnitudes *)
      assert (HF' : F' <= Rabs alpha * ((g - 1) * B) + Rabs alpha * (IZR n * w) * (g + 3) + 4 * w).
      { assert (M1 : Rabs p0 <= (G 2 - 1) * (Rabs alpha * (G n * A)) + 4 * w).
        { apply Rle_trans with (1 := Bp0). apply Rplus_le_compat_r. apply Rmult_le_compat_l; [pose proof (G_ge1 prec 2); lra|].
          rewrite Rabs_mult, Rmult_comm. apply Rmult_le_compat_l; auto. }
        assert (M2 : Rabs alpha * F <= Rabs alpha * ((G n - 1) * A + P)) by (apply Rmult_le_compat_l; auto).
        assert (M3 : (G 2 * G n - 1) * A <= (G 2 * G n - 1) * ((1 + u) * B + IZR n * w)).
        { apply Rmult_le_compat_l; auto. pose proof (G_ge1 prec 2). nra. }
        assert (M4 : Rabs alpha * ((G 2 * G n - 1) * A + P) <=
          Rabs alpha * ((G 2 * G n - 1) * ((1 + u) * B + IZR n * w) + ((G 2 - 1) * B + IZR n * (4 * w)))) by (apply Rmult_le_compat_l; lra).
        assert (M5 : (G 2 * G n - 1) * (1 + u) + (G 2 - 1) <= g - 1).
        { rewrite G6, EG, G3, G_2 by zl.
          set (q := (1 + u) * (1 + u) * (1 + u)).
          assert (Q1 : 1 + 3 * u <= q) by (unfold q; assert (0 <= u * u * u) by nra; nra).
          assert (Q2 : 1 <= q * G n) by (rewrite <- (Rmult_1_l 1); apply Rmult_le_compat; lra).
          assert (Q3 : 1 * (q - 1) <= q * G n * (q - 1)) by (apply Rmult_le_compat_r; lra).
          assert (Q4 : u * (1 + u) <= 3 * u) by nra.
          replace (((1 + u) * (1 + u) * G n - 1) * (1 + u) + ((1 + u) * (1 + u) - 1)) with (q * G n - 1 + u * (1 + u)) by (unfold q; ring).
          replace (q * (q * G n) - 1) with (q * G n * (q - 1) + q * G n - 1) by ring. lra. }
        assert (M6 : G 2 * G n <= g) by (unfold g; rewrite <- EG by zl; apply G_mono; zl).
        assert (M7 : Rabs alpha * (((G 2 * G n - 1) * (1 + u) + (G 2 - 1)) * B) <= Rabs alpha * ((g - 1) * B)).
        { apply Rmult_le_compat_l; auto. apply Rmult_le_compat_r; auto. }
        assert (M8 : Rabs alpha * (IZR n * w) * (G 2 * G n + 3) <= Rabs alpha * (IZR n * w) * (g + 3)).
        { apply Rmult_le_compat_l; [|lra]. apply Rmult_le_pos; auto. apply Rmult_le_pos; lra. }
        unfold F'. lra. }
      assert (T3 : eps * (Rabs alpha * (G n * A)) <= eps * (g * (Rabs alpha * B)) + / 16 * (g * (Rabs alpha * (IZR n * w)))).
      { assert (N1 : G n * A <= G n * ((1 + u) * B + IZR n * w)) by (apply Rmult_le_compat_l; lra).
        assert (N2 : G n <= g) by (apply G_mono; zl).
        assert (N3 : (1 + u) * G n <= g) by (rewrite <- G_S by zl; apply G_mono; zl).
        assert (N4 : (1 + u) * G n * B <= g * B) by (apply Rmult_le_compat_r; auto).
        assert (Pnw : 0 <= IZR n * w) by (apply Rmult_le_pos; lra).
        assert (N5 : G n * (IZR n * w) <= g * (IZR n * w)) by (apply Rmult_le_compat_r; auto).
        apply Rle_trans with (eps * (Rabs alpha * (g * B + g * (IZR n * w)))).
        - apply Rmult_le_compat_l; auto. apply Rmult_le_compat_l; auto. lra.
        - replace (eps * (Rabs alpha * (g * B + g * (IZR n * w)))) with
            (eps * (g * (Rabs alpha * B)) + eps * (g * (Rabs alpha * (IZR n * w)))) by ring.
          apply Rplus_le_compat_l. apply Rmult_le_compat_r; [|lra].
          apply Rmult_le_pos; [lra|]. apply Rmult_le_pos; auto. }
      set (b := Rabs alpha * B) in *. set (q := Rabs alpha * (IZR n * w)) in *.
      assert (Pb : 0 <= b) by (apply Rmult_le_pos; auto).
      assert (Pq : 0 <= q) by (apply Rmult_le_pos; auto; apply Rmult_le_pos; lra).
      assert (T4 : (g - 1) * F' <= (g - 1) * ((g - 1) * b + q * (g + 3) + 4 * w)).
      { apply Rmult_le_compat_l; [lra|]. apply Rle_trans with (1 := HF'). unfold b, q. apply Req_le. ring. }
      assert (T5 : Rabs (x + y - alpha * D) <= ((g - 1) * (g - 1) + eps * (1 + g)) * b + 5 * (g * g) * (q + w)).
      { replace (x + y - alpha * D) with ((x + y - (h0 + (p0 + alpha * E))) + (h0 + (p0 + alpha * E) - alpha * D)) by ring.
        apply Rle_trans with (1 := Rabs_triang _ _).
        assert (C1 : q * ((g - 1) * (g + 3) + / 16 * g + 7 / 2) <= q * (5 * (g * g))) by (apply Rmult_le_compat_l; [auto|nra]).
        assert (C2 : w * (4 * (g - 1) + / 2 * g + 7 / 2) <= w * (5 * (g * g))) by (apply Rmult_le_compat_l; [lra|nra]).
        replace (Rabs alpha * (eps * B + IZR n * (7 / 2 * w))) with (eps * b + 7 / 2 * q) in T2 by (unfold b, q; ring).
        lra. }
      unfold adot_bound. fold g. fold b.
      replace ((IZR n * Rabs alpha + 1) * w) with (q + w) by (unfold q; ring).
      pose proof (rnd_add prec emin Hprec x y Fx Fy) as R1.
      replace (rn (x + y) - alpha * D) with ((rn (x + y) - (x + y)) + (x + y - alpha * D)) by ring.
      apply Rle_trans with (1 := Rabs_triang _ _).
      assert (R2 : Rabs (x + y) <= Rabs (alpha * D) + Rabs (x + y - alpha * D)).
      { replace (x + y) with (alpha * D + (x + y - alpha * D)) at 1 by ring. apply Rabs_triang. }
      assert (R3 : u * Rabs (x + y) <= u * (Rabs (alpha * D) + Rabs (x + y - alpha * D))) by (apply Rmult_le_compat_l; lra).
      assert (R4 : (1 + u) * Rabs (x + y - alpha * D) <= (1 + u) * (((g - 1) * (g - 1) + eps * (1 + g)) * b + 5 * (g * g) * (q + w)))
        by (apply Rmult_le_compat_l; lra).
      lra.
    Qed.

    Lemma ext_adot_spec : forall L m res alpha X Y,
      isvec X -> isvec Y -> wf X -> wf Y -> allocated L X -> allocated L Y -> vlen X = vlen Y -> flt alpha ->
      (forall k, (0 <= k < vlen X)%Z -> flt (velt m X k)) -> (forall k, (0 <= k < vlen X)%Z -> flt (velt m Y k)) ->
      exists r, armas_ext_adot K TP res alpha X Y L m = Some ((0%Z, 0%Z, r), m) /\ flt r /\
        adot_bound (vlen X) alpha (SUM (vlen X) (fun k => velt m X k * velt m Y k))
          (SUM (vlen X) (fun k => Rabs (velt m X k * velt m Y k))) r.
    Proof.
      intros L m res alpha X Y VX VY WX WY LX LY El Fal FX FY.
      pose proof (vlen_nonneg X WX) as Pn.
      set (D := SUM (vlen X) (fun k => velt m X k * velt m Y k)).
      set (B := SUM (vlen X) (fun k => Rabs (velt m X k * velt m Y k))).
      assert (PB : 0 <= B) by (apply SUM_pos; intros; apply Rabs_pos).
      assert (W : wp (armas_ext_adot K TP res alpha X Y) L m (fun r m' => m' = m /\ fst r = (0%Z, 0%Z) /\ flt (snd r) /\
        adot_bound (vlen X) alpha D B (snd r))).
      { unfold armas_ext_adot. apply isvector_isvec in VX as E1. apply isvector_isvec in VY as E2. rewrite E1, E2. cbn [negb orb].
        change (armas_size X) with (vlen X). change (armas_size Y) with (vlen Y). rewrite El, Z.eqb_refl, <- El. cbn [negb].
        wbind. unfold armas_ext_adot_unsafe. cbn [zero eqb Fnum]. destruct (Reqb alpha 0) eqn:E0.
        - assert (alpha = 0) as -> by (unfold Reqb in E0; destruct (Req_EM_T alpha 0); [auto|discriminate]).
          apply wp_ret. apply wp_ret. cbn [fst snd add Fnum]. rewrite Rplus_0_l, rnd_0. split; [auto|]. split; [auto|].
          split; [apply float_0|]. unfold adot_bound. rewrite Rmult_0_l, Rminus_diag_eq, Rabs_R0 by auto.
          pose proof (u_pos prec). pose proof (G_ge1 prec (vlen X + 6)). pose proof (w_pos emin).
          assert (0 <= 5 * (G (vlen X + 6) * G (vlen X + 6)) * w) by (apply Rmult_le_pos; nra). nra.
        - wbind. change (armas_size X) with (vlen X). apply adot_loop_wp; auto; try zl.
          intros sc I. destruct (tp_sums (vlen X) (velt m X) (velt m Y) Pn FX ltac:(intros; apply FY; zl)) as (S1 & S2 & S3).
          pose proof (adot_final (vlen X) alpha sc _ _ _ D B Pn Fal I PB S1 S2 S3) as J. destruct sc as [s0 c0].
          cbn [add mul Fnum]. destruct (TP s0 alpha) as [h0 p0]. destruct (fastsum K 0 h0) as [s1 z0].
          cbv zeta in J. apply wp_ret. apply wp_ret. destruct (fastsum K s1 _) as [h l]. cbn [fst snd].
          split; [auto|]. split; [auto|]. split; [apply float_rnd; auto|exact J]. }
      destruct W as ([[a b] r] & m' & E & -> & Ez & Fr & Bd). cbn [fst snd] in *. inversion Ez; subst. exists r. auto.
    Qed.

    (* ------------------------------------------------------------- axpby *)
    Definition axpby_bound (V B r : R) : Prop :=
      Rabs (r - V) <= u * Rabs V + (1 + u) * (((G 2 - 1) * (G 4 - 1) + eps) * B + 16 * w).

    Lemma small_G : (G 2 - 1) * 9 <= 5 / 2.
    Proof. rewrite G_2. pose proof (u_pos prec). pose proof (u_le1 prec Hprec). nra. Qed.
    Lemma G4_G2 : G 2 - 1 + u * (1 + u) <= G 4 - 1.
    Proof.
      replace (G 4) with (G 2 * G 2) by (rewrite <- G_add by zl; reflexivity). rewrite G_2. pose proof (u_pos prec).
      assert (0 <= u * u) by nra. assert (0 <= u * u * u) by nra. nra.
    Qed.

    (* the end of both: the high part, the low part and what they stand for *)
    Lemma axpby_final : forall y0 a E F V t B, flt y0 -> fs prec emin 2 a E F 0 -> y0 + E = V + t ->
      Rabs t <= eps * B + 7 * w -> F <= (G 4 - 1) * B + 9 * w -> 0 <= B ->
      axpby_bound V B (rn (a + y0)).
    Proof.
      intros y0 a E F V t B Fy X ES Ht HF PB. rewrite (Rplus_comm a y0).
      pose proof (acc_final prec emin Hprec y0 a E F 2 (V + t) Fy (proj1 X) ES X) as R.
      pose proof (u_pos prec). pose proof (w_pos emin). pose proof small_G. pose proof (G_ge1 prec 2).
      unfold axpby_bound. replace (rn (y0 + a) - V) with ((rn (y0 + a) - (V + t)) + t) by ring.
      apply Rle_trans with (1 := Rabs_triang _ _). pose proof (Rabs_triang V t).
      assert (u * Rabs (V + t) <= u * (Rabs V + Rabs t)) by (apply Rmult_le_compat_l; lra).
      assert (A1 : (G 2 - 1) * F <= (G 2 - 1) * ((G 4 - 1) * B + 9 * w)) by (apply Rmult_le_compat_l; lra).
      assert (A2 : (G 2 - 1) * 9 * w <= 5 / 2 * w) by (apply Rmult_le_compat_r; lra).
      assert (A3 : (1 + u) * ((G 2 - 1) * F + Rabs t) <= (1 + u) * (((G 2 - 1) * (G 4 - 1) + eps) * B + 16 * w)).
      { apply Rmult_le_compat_l; [lra|]. lra. }
      lra.
    Qed.

    Lemma axpy1_ok : forall alpha x y, flt alpha -> flt x -> flt y ->
      flt (axpy1 K TP alpha x y) /\ axpby_bound (alpha * x + y) (Rabs (alpha * x) + Rabs y) (axpy1 K TP alpha x y).
    Proof.
      intros alpha x y Fa Fx Fy. unfold axpy1. destruct (TP x alpha) as [x0 p] eqn:Et.
      destruct (tp_facts prec emin Hprec eps TP HTP x alpha x0 p Fx Fa Et) as (F0 & Fp & B0 & Bp & Bt).
      destruct (twosum_spec prec emin Hprec Hemin x0 y F0 Fy) as (s & z & Es & Fs & Fz & Ez & Bz). rewrite Es. cbn [add Fnum].
      split; [apply float_rnd; auto|]. rewrite (Rmult_comm x alpha) in B0, Bp, Bt.
      pose proof (u_pos prec). pose proof (w_pos emin). pose proof G4_G2. pose proof (Rabs_pos (alpha * x)). pose proof (Rabs_pos y).
      pose proof (u_le1 prec Hprec). pose proof (proj1 HTP) as He.
      apply axpby_final with (E := p + z) (F := Rabs p + Rabs z) (t := x0 + p - alpha * x); auto.
      - apply fs_mono with (0 + 1)%Z; [zl|]. apply fs_add_r; auto. apply fs_leaf; auto.
      - lra.
      - apply Rle_trans with (1 := Bt). nra.
      - assert (Rabs z <= u * (Rabs x0 + Rabs y)).
        { apply Rle_trans with (1 := Bz). apply Rmult_le_compat_l; [lra|]. apply Rabs_triang. }
        assert (u * Rabs x0 <= u * ((1 + u) * Rabs (alpha * x) + w)) by (apply Rmult_le_compat_l; lra).
        assert ((G 2 - 1 + u * (1 + u)) * (Rabs (alpha * x) + Rabs y) <= (G 4 - 1) * (Rabs (alpha * x) + Rabs y)) by (apply Rmult_le_compat_r; lra).
        assert (0 <= (G 2 - 1 + u * u) * Rabs y) by (apply Rmult_le_pos; [pose proof (G_ge1 prec 2); nra|auto]).
        assert (u * w <= / 16 * w) by (apply Rmult_le_compat_r; lra). lra.
      - lra.
    Qed.

    Lemma axpby1_ok : forall beta alpha x y, flt beta -> flt alpha -> flt x -> flt y ->
      flt (axpby1 K TP beta alpha x y) /\
      axpby_bound (alpha * x + beta * y) (Rabs (alpha * x) + Rabs (beta * y)) (axpby1 K TP beta alpha x y).
    Proof.
      intros beta alpha x y Fb Fa Fx Fy. unfold axpby1. destruct (TP x alpha) as [x0 p] eqn:Et. destruct (TP y beta) as [y0 c] eqn:Eu.
      destruct (tp_facts prec emin Hprec eps TP HTP x alpha x0 p Fx Fa Et) as (F0 & Fp & B0 & Bp & Bt).
      destruct (tp_facts prec emin Hprec eps TP HTP y beta y0 c Fy Fb Eu) as (F1 & Fc & B1 & Bc & Bu).
      destruct (twosum_spec prec emin Hprec Hemin x0 y0 F0 F1) as (s & z & Es & Fs & Fz & Ez & Bz). rewrite Es. cbn [add Fnum].
      split; [apply float_rnd; auto|]. rewrite (Rmult_comm x alpha) in B0, Bp, Bt. rewrite (Rmult_comm y beta) in B1, Bc, Bu.
      pose proof (u_pos prec). pose proof (w_pos emin). pose proof G4_G2. pose proof (Rabs_pos (alpha * x)). pose proof (Rabs_pos (beta * y)).
      pose proof (u_le1 prec Hprec). pose proof (proj1 HTP) as He.
      apply axpby_final with (E := p + c + z) (F := Rabs p + Rabs c + Rabs z) (t := (x0 + p - alpha * x) + (y0 + c - beta * y)); auto.
      - apply fs_mono with (0 + 1 + 1)%Z; [zl|]. apply fs_add_r; auto. apply fs_add_r; auto. apply fs_leaf; auto.
      - lra.
      - apply Rle_trans with (1 := Rabs_triang _ _). lra.
      - assert (Rabs z <= u * (Rabs x0 + Rabs y0)).
        { apply Rle_trans with (1 := Bz). apply Rmult_le_compat_l; [lra|]. apply Rabs_triang. }
        assert (u * Rabs x0 <= u * ((1 + u) * Rabs (alpha * x) + w)) by (apply Rmult_le_compat_l; lra).
        assert (u * Rabs y0 <= u * ((1 + u) * Rabs (beta * y) + w)) by (apply Rmult_le_compat_l; lra).
        assert ((G 2 - 1 + u * (1 + u)) * (Rabs (alpha * x) + Rabs (beta * y)) <= (G 4 - 1) * (Rabs (alpha * x) + Rabs (beta * y))) by (apply Rmult_le_compat_r; lra).
        assert (u * w <= / 16 * w) by (apply Rmult_le_compat_r; lra). lra.
      - lra.
    Qed.
  End TP.
End Ext.

Section Vec.
  Context {T : Type}.
  Variable K : num T.

  (* both loops of axpy_ext.c *)
  Lemma ext_loop_wp : forall L (op : T -> T -> T) y x m0 (Q : unit -> (Z -> T) -> Prop),
    isvec y -> isvec x -> wf y -> wf x -> allocated L y -> allocated L x -> disjoint y x -> vlen y = vlen x ->
    (forall m', upd m0 (vad y) (fun k => op (m0 (vad x k)) (m0 (vad y k))) (vdom y) m' -> Q tt m') ->
    wp (for_up 0 (vlen x - 1) 2 (fun i =>
      x0 <- rd (elems x + (i + 0) * vinc x) ;;
      x1 <- rd (elems x + (i + 1) * vinc x) ;;
      y0 <- rd (elems y + (i + 0) * vinc y) ;;
      y1 <- rd (elems y + (i + 1) * vinc y) ;;
      wr (elems y + (i + 0) * vinc y) (op x0 y0) ;;
      wr (elems y + (i + 1) * vinc y) (op x1 y1)) ;;
    if (loop_end 0 (vlen x - 1) 2 =? vlen x)%Z then ret tt
    else
      x0 <- rd (elems x + loop_end 0 (vlen x - 1) 2 * vinc x) ;;
      y0 <- rd (elems y + loop_end 0 (vlen x - 1) 2 * vinc y) ;;
      wr (elems y + loop_end 0 (vlen x - 1) 2 * vinc y) (op x0 y0)) L m0 Q.
  Proof.
    intros L op y x m0 Q Vy Vx Wy Wx Ly Lx D Hl HQ. pose proof (vlen_nonneg x Wx) as Hn.
    set (f := fun k => op (m0 (vad x k)) (m0 (vad y k))) in *.
    assert (Hx : forall m' S, upd m0 (vad y) f S m' ->
                (forall q, S q -> vdom y q) -> forall k, vdom y k -> m' (vad x k) = m0 (vad x k)).
    { intros m' S Hu' HS k Hk. eapply vupd_disj; eauto. apply vad_cell; auto. unfold vdom in *; zl. }
    wbind. apply wp_for_up with (I := fun n m => upd m0 (vad y) f (fun k => 0 <= k < n /\ k < vlen y)%Z m); try zl.
    - apply upd_nil. intros; zl.
    - intros i m k Hk Ek Hi Hu.
      assert (Hy : forall k, (i <= k < vlen y)%Z -> m (vad y k) = m0 (vad y k)).
      { intros q Hq. eapply vupd_old; eauto; vdm. }
      do 2 (vrd x). do 2 (vrd y).
      wbind. eapply wp_wr_v with (k := (i + 0)%Z); [exact Hu|eassumption|eassumption|eassumption|vdm|vdm|apply vad_eq| |].
      { unfold f. rewrite Hy by zl. rewrite (Hx _ _ Hu) by vdm. reflexivity. }
      intros m1 Hu1.
      eapply wp_wr_v with (k := (i + 1)%Z); [exact Hu1|eassumption|eassumption|eassumption|vdm|vdm|apply vad_eq| |].
      { unfold f. rewrite Hy by zl. rewrite (Hx _ _ Hu) by vdm. reflexivity. }
      clear Hu Hu1. intros m2 Hu. uext Hu.
    - intros m Hu. destruct (loop_end_2 (vlen x) Hn) as [E|E]; rewrite E in *.
      + rewrite Z.eqb_refl. apply wp_ret. apply HQ. uext Hu.
      + assert (0 <= vlen x - 1)%Z.
        { destruct (Z_le_dec 0 (vlen x - 1)); [auto|]. rewrite loop_end_0 in E by zl. zl. }
        replace (vlen x - 1 =? vlen x)%Z with false by zl. vrd x. vrd y.
        eapply wp_wr_v with (k := (vlen x - 1)%Z); [exact Hu|eassumption|eassumption|eassumption|vdm|vdm|apply vad_eq| |].
        { unfold f. replace (vlen x - 1 + 0)%Z with (vlen x - 1)%Z by zl. rewrite (Hx _ _ Hu) by vdm. f_equal.
          eapply vupd_old; eauto; vdm. }
        clear Hu. intros m2 Hu. apply HQ. uext Hu.
  Qed.
End Vec.
