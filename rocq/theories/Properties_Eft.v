(* Properties_Eft.v: C70 sums, C71 inner products and C72 vector updates in extended
   precision (src/eblas): accuracy in floating-point arithmetic. *)
From Coq Require Import ZArith Lia Bool Reals Lra.
From Flocq Require Import Core.
From Verif Require Import Mem MView SpecView MFlags MCopy MNum SpecNum MBlas1 MEft SpecFloat Hoare
  PUpd PSum PBlas1 PCopy Inst PFloat PEft PEft32 PExt Properties_Copy Properties_Blas1.
Local Open Scope R_scope.

Local Notation bp := (bpow radix2).
Local Notation "'SUM' n f" := (vsum Rnum n f) (at level 10, n at level 9, f at level 9).

(* the number types and product transformations the library is built with: the type,
   its twoprod and the relative error eps of the pair twoprod computes (0: only
   underflow is lost).  Split factors of eft.h:36-39. *)
Inductive build : Z -> Z -> (R -> R -> R * R) -> R -> Prop :=
| build_f64 : build 53 (-1074) (twoprod F64 (bp 27 + 1)) 0
| build_f64_fma : build 53 (-1074) (twoprod_fma F64 (Ffma 53 (-1074))) 0
| build_f32 : build 24 (-149) (twoprod F32 (bp 14 + 1)) (bp (-44))
| build_f32_fma : build 24 (-149) (twoprod_fma F32 (Ffma 24 (-149))) 0.

Lemma build_ok : forall prec emin TP eps, build prec emin TP eps ->
  (23 < prec)%Z /\ (emin < 0)%Z /\ tp_ok prec emin eps TP.
Proof.
  intros prec emin TP eps B. destruct B; (split; [lia|]); (split; [lia|]).
  - apply (tp_dekker 53 (-1074)); reflexivity.
  - apply tp_fma; lia.
  - apply tp_float; lia.
  - apply tp_fma; lia.
Qed.

(* (1+u)^k - 1 <= 2ku as long as ku <= 1/2 *)
Lemma up_lin : forall prec k, (0 <= k)%Z -> IZR k * uro prec <= / 2 -> 0 <= up prec k - 1 <= 2 * (IZR k * uro prec).
Proof.
  intros prec k Hk Hu. pose proof (G_ge1 prec k). pose proof (u_pos prec) as Pu. split; [lra|].
  assert (B : forall j, (0 <= j <= k)%Z -> up prec j * (1 - IZR j * uro prec) <= 1).
  { intros j [Hj Hjk]. revert Hjk. pattern j. apply natlike_ind; [| |exact Hj].
    - intros _. rewrite G_0. lra.
    - intros i Hi IH Hik. unfold Z.succ in *. rewrite G_S by auto. specialize (IH ltac:(lia)).
      pose proof (G_ge1 prec i) as Gi. apply Rle_trans with (2 := IH). rewrite plus_IZR.
      assert (Pi : 0 <= IZR i) by (apply IZR_le; lia).
      replace ((1 + uro prec) * up prec i * (1 - (IZR i + 1) * uro prec)) with
        (up prec i * (1 - IZR i * uro prec - uro prec * uro prec * (IZR i + 1))) by ring.
      apply Rmult_le_compat_l; [lra|]. assert (0 <= uro prec * uro prec * (IZR i + 1)) by (apply Rmult_le_pos; nra). lra. }
  specialize (B k ltac:(lia)). set (t := IZR k * uro prec) in *.
  assert (0 <= t) by (unfold t; apply Rmult_le_pos; [apply IZR_le; lia|lra]). nra.
Qed.

(* ---- C70 ---- *)

(* the sum of the elements, or of their magnitudes, with multiplier one *)
Theorem C70_ext_sum_partial : forall prec emin TP eps L m res X flags, build prec emin TP eps ->
  isvec X -> wf X -> allocated L X -> (forall k, (0 <= k < vlen X)%Z -> float prec emin (velt m X k)) ->
  let f := fun k => if has flags ARMAS_ABS then Rabs (velt m X k) else velt m X k in
  let n := vlen X in
  exists r, armas_ext_sum (Fnum prec emin) TP res 1 X flags L m = Some ((0%Z, r), m) /\ float prec emin r /\
    Rabs (r - SUM n f) <= uro prec * Rabs (SUM n f) +
      (1 + uro prec) * ((up prec (n + 6) - 1) * ((up prec (n + 3) - 1) * SUM n (fun k => Rabs (velt m X k)))).
Proof.
  intros prec emin TP eps L m res X flags B VX WX LX FX f n. destruct (build_ok _ _ _ _ B) as (Hp & He & _).
  apply (ext_sum_one prec emin ltac:(lia) He); auto.
Qed.
Print Assumptions C70_ext_sum_partial.

(* the same with the second order term in terms of the length *)
Theorem C70_ext_sum_simple_partial : forall prec emin TP eps L m res X, build prec emin TP eps ->
  isvec X -> wf X -> allocated L X -> (forall k, (0 <= k < vlen X)%Z -> float prec emin (velt m X k)) ->
  IZR (vlen X + 6) * uro prec <= / 2 ->
  exists r, armas_ext_sum (Fnum prec emin) TP res 1 X 0 L m = Some ((0%Z, r), m) /\
    Rabs (r - SUM (vlen X) (velt m X)) <= uro prec * Rabs (SUM (vlen X) (velt m X)) +
      5 * (IZR (vlen X + 6) * uro prec) * (IZR (vlen X + 6) * uro prec) * SUM (vlen X) (fun k => Rabs (velt m X k)).
Proof.
  intros prec emin TP eps L m res X B VX WX LX FX Hn. destruct (build_ok _ _ _ _ B) as (Hp & He & _).
  destruct (ext_sum_one prec emin ltac:(lia) He L m TP res X 0 VX WX LX FX) as (r & E & _ & Br). exists r. split; [exact E|].
  cbv beta zeta in Br. change (has 0 ARMAS_ABS) with false in Br. cbn iota in Br. change (fun k : Z => velt m X k) with (velt m X) in Br.
  apply Rle_trans with (1 := Br). apply Rplus_le_compat_l. set (A := SUM (vlen X) _).
  assert (PA : 0 <= A) by (apply SUM_pos; intros; apply Rabs_pos). pose proof (vlen_nonneg X WX) as Pn.
  destruct (up_lin prec (vlen X + 6) ltac:(lia) Hn) as [L6 U6]. pose proof (G_mono prec (vlen X + 3) (vlen X + 6) ltac:(lia)) as L3.
  pose proof (G_ge1 prec (vlen X + 3)). pose proof (u_pos prec). pose proof (u_le1 prec ltac:(lia)).
  set (t := IZR (vlen X + 6) * uro prec) in *. set (g6 := up prec (vlen X + 6)) in *. set (g3 := up prec (vlen X + 3)) in *.
  assert ((g6 - 1) * (g3 - 1) <= (2 * t) * (2 * t)) by (apply Rmult_le_compat; lra).
  assert (0 <= (g6 - 1) * (g3 - 1)) by (apply Rmult_le_pos; lra).
  rewrite <- !Rmult_assoc. apply Rmult_le_compat_r; [exact PA|]. nra.
Qed.
Print Assumptions C70_ext_sum_simple_partial.

Theorem C70_ext_sum_errors : forall T (K : num T) TP L m res alpha X flags, ~ isvec X ->
  armas_ext_sum K TP res alpha X flags L m = Some ((- ARMAS_ENEED_VECTOR, res)%Z, m).
Proof.
  intros T K TP L m res alpha X flags NX. unfold armas_ext_sum.
  destruct (armas_isvector X) eqn:E; [apply isvector_isvec in E; contradiction|]. reflexivity.
Qed.
Print Assumptions C70_ext_sum_errors.

(* with another multiplier the high part of the product is dropped: 2 * (1) gives 0 *)
Section Ints.
  Variable prec emin : Z.
  Hypothesis Hp : (23 < prec)%Z.
  Hypothesis He : (emin < 0)%Z.
  Local Notation rn := (rnd prec emin).

  Lemma float_int : forall z, (Z.abs z < 2 ^ prec)%Z -> float prec emin (IZR z).
  Proof.
    intros z Hz. apply (mult_float prec emin ltac:(lia) 0%Z); [lia| |].
    - exists z. cbn [bpow]. ring.
    - rewrite <- abs_IZR. replace (0 + prec)%Z with prec by lia. rewrite <- IZR_Zpower by lia. apply IZR_lt. exact Hz.
  Qed.
  Lemma rn_int : forall z, (Z.abs z < 2 ^ prec)%Z -> rn (IZR z) = IZR z.
  Proof. intros. apply rnd_float, float_int. auto. Qed.
End Ints.

Lemma Reqb_neq : forall a b, a <> b -> Reqb a b = false.
Proof. intros a b H. unfold Reqb. destruct (Req_EM_T a b); auto; contradiction. Qed.

Definition ext_one : view := mkview 100 4 1 1.

Lemma ext_one_sum : forall prec emin, (23 < prec)%Z -> (emin < 0)%Z ->
  ext_sum2s (Fnum prec emin) ext_one 1 cp_L (fun _ => 1) = Some ((1, 0), fun _ => 1).
Proof.
  intros prec emin Hp He.
  assert (R1 : rnd prec emin 1 = 1).
  { apply (rn_int prec emin Hp He 1). apply Z.lt_le_trans with (2 ^ 1)%Z; [reflexivity|apply Z.pow_le_mono_r; lia]. }
  assert (R0 : rnd prec emin 0 = 0) by (apply rnd_0).
  assert (D : forall x, x - x = 0) by (intros; ring).
  lazy -[Rplus Rminus Rmult Ropp Rabs rnd IZR Reqb bpow].
  repeat (rewrite ?Rplus_0_r, ?Rplus_0_l, ?Rminus_0_r, ?D, ?R0, ?R1). reflexivity.
Qed.

Theorem C70_ext_sum_alpha_refuted : forall prec emin TP eps, build prec emin TP eps ->
  exists X m, isvec X /\ wf X /\ allocated cp_L X /\ (forall k, (0 <= k < vlen X)%Z -> float prec emin (velt m X k)) /\
    2 * SUM (vlen X) (velt m X) = 2 /\
    armas_ext_sum (Fnum prec emin) TP 7 2 X 0 cp_L m = Some ((0%Z, 0), m).
Proof.
  intros prec emin TP eps B. exists ext_one, (fun _ => 1).
  destruct (cp_ok 100 4 1 1 1000 4 1 1) as (H1 & _ & H3 & _ & _); try lia.
  split; [left; reflexivity|]. split; [exact H1|]. split; [exact H3|].
  split; [intros k Hk; destruct (build_ok _ _ _ _ B) as (Hp & He & _); apply (float_int prec emin Hp He 1);
          apply Z.lt_le_trans with (2 ^ 1)%Z; [reflexivity|apply Z.pow_le_mono_r; lia]|].
  split; [change (vlen ext_one) with (0 + 1)%Z; rewrite SUM_S, SUM_0 by lia; change (velt (fun _ : Z => 1) ext_one 0%Z) with 1; ring|].
  assert (E : snd (TP 2 1) = 0).
  { destruct B.
    - unfold twoprod, F64. cbn [add sub mul Fnum]. cbv zeta. cbn [snd]. change (bp 27 + 1) with (134217728 + 1). 
      repeat (rewrite <- ?plus_IZR, <- ?minus_IZR, <- ?mult_IZR; rewrite ?(rn_int 53 (-1074)) by (reflexivity || lia)). reflexivity.
    - unfold twoprod_fma, F64, Ffma. cbn [add sub mul opp Fnum snd].
      repeat (rewrite <- ?plus_IZR, <- ?opp_IZR, <- ?mult_IZR; rewrite ?(rn_int 53 (-1074)) by (reflexivity || lia)). reflexivity.
    - unfold twoprod, F32. cbn [add sub mul Fnum]. cbv zeta. cbn [snd]. change (bp 14 + 1) with (16384 + 1).
      repeat (rewrite <- ?plus_IZR, <- ?minus_IZR, <- ?mult_IZR; rewrite ?(rn_int 24 (-149)) by (reflexivity || lia)). reflexivity.
    - unfold twoprod_fma, F32, Ffma. cbn [add sub mul opp Fnum snd].
      repeat (rewrite <- ?plus_IZR, <- ?opp_IZR, <- ?mult_IZR; rewrite ?(rn_int 24 (-149)) by (reflexivity || lia)). reflexivity. }
  destruct (build_ok _ _ _ _ B) as (Hp & He & _).
  unfold armas_ext_sum. change (armas_isvector ext_one) with true. cbn [negb]. change (has 0 ARMAS_ABS) with false. cbn iota.
  change (armas_size ext_one) with 1%Z. rewrite run_bind, ext_one_sum by auto.
  cbn [eqb one Fnum]. rewrite Reqb_neq by lra. cbn [negb]. destruct (TP 2 1) as [h q]. cbn [snd] in E. rewrite E.
  cbn [add mul Fnum]. rewrite Rmult_0_r, rnd_0, Rplus_0_r, rnd_0. reflexivity.
Qed.
Print Assumptions C70_ext_sum_alpha_refuted.

(* integers are numbers of both types *)
Lemma ext_ints : forall prec emin TP eps, build prec emin TP eps ->
  forall L X m, allocated L X -> isvec X -> wf X -> (forall a, L a = true -> (Z.abs (m a) < 2 ^ 24)%Z) ->
  forall k, (0 <= k < vlen X)%Z -> float prec emin (velt (fun a => IZR (m a)) X k).
Proof.
  intros prec emin TP eps B L X m LX VX WX Hm k Hk. destruct (build_ok _ _ _ _ B) as (Hp & He & _).
  rewrite velt_vad by auto. apply (float_int prec emin Hp He). apply Z.lt_le_trans with (2 ^ 24)%Z.
  - apply Hm, LX, vad_cell; auto.
  - apply Z.pow_le_mono_r; lia.
Qed.

Example C70_nonvacuous : forall prec emin TP eps, build prec emin TP eps ->
  isvec b1_row /\ wf b1_row /\ allocated cp_L b1_row /\ vlen b1_row = 6%Z /\
  (forall k, (0 <= k < vlen b1_row)%Z -> float prec emin (velt (fun a => IZR (a * a - 12000)) b1_row k)) /\
  IZR (vlen b1_row + 6) * uro prec <= / 2.
Proof.
  intros prec emin TP eps B. pose proof b1_ok as (H1 & H2 & H3 & H4 & H5 & H6 & H7 & H8).
  split; [exact H1|]. split; [exact H3|]. split; [exact H5|]. split; [reflexivity|]. split.
  - apply (ext_ints _ _ _ _ B cp_L); auto. intros a Ha. unfold cp_L in Ha.
    apply andb_prop in Ha. nia.
  - destruct (build_ok _ _ _ _ B) as (Hp & _ & _). change (IZR (vlen b1_row + 6)) with 12.
    assert (uro prec <= bp (-24)) by (apply bpow_le; lia). change (bp (-24)) with (/ 16777216) in H. lra.
Qed.

(* ---- C71 ---- *)

(* result = alpha * (x . y), as if the sum had been computed in twice the precision *)
Theorem C71_ext_adot : forall prec emin TP eps L m res alpha X Y, build prec emin TP eps ->
  isvec X -> isvec Y -> wf X -> wf Y -> allocated L X -> allocated L Y -> vlen X = vlen Y -> float prec emin alpha ->
  (forall k, (0 <= k < vlen X)%Z -> float prec emin (velt m X k)) ->
  (forall k, (0 <= k < vlen X)%Z -> float prec emin (velt m Y k)) ->
  let n := vlen X in
  let D := SUM n (fun k => velt m X k * velt m Y k) in
  let B := SUM n (fun k => Rabs (velt m X k * velt m Y k)) in
  let g := up prec (n + 6) in
  exists r, armas_ext_adot (Fnum prec emin) TP res alpha X Y L m = Some ((0, 0, r)%Z, m) /\ float prec emin r /\
    Rabs (r - alpha * D) <= uro prec * Rabs (alpha * D) +
      (1 + uro prec) * (((g - 1) * (g - 1) + eps * (1 + g)) * (Rabs alpha * B) +
                        5 * (g * g) * ((IZR n * Rabs alpha + 1) * omega emin)).
Proof.
  intros prec emin TP eps L m res alpha X Y B VX VY WX WY LX LY El Fa FX FY n D B' g.
  destruct (build_ok _ _ _ _ B) as (Hp & He & HT).
  exact (ext_adot_spec prec emin ltac:(lia) He eps TP HT L m res alpha X Y VX VY WX WY LX LY El Fa FX FY).
Qed.
Print Assumptions C71_ext_adot.

(* in doubles the second order term is (2(n+6)u)^2 *)
Theorem C71_ext_adot_double : forall TP L m res alpha X Y, build 53 (-1074) TP 0 ->
  isvec X -> isvec Y -> wf X -> wf Y -> allocated L X -> allocated L Y -> vlen X = vlen Y -> float64 alpha ->
  (forall k, (0 <= k < vlen X)%Z -> float64 (velt m X k)) ->
  (forall k, (0 <= k < vlen X)%Z -> float64 (velt m Y k)) ->
  IZR (vlen X + 6) * uro 53 <= / 2 ->
  let n := vlen X in
  let D := SUM n (fun k => velt m X k * velt m Y k) in
  let B := SUM n (fun k => Rabs (velt m X k * velt m Y k)) in
  let t := IZR (n + 6) * uro 53 in
  exists r, armas_ext_adot F64 TP res alpha X Y L m = Some ((0, 0, r)%Z, m) /\ float64 r /\
    Rabs (r - alpha * D) <= uro 53 * Rabs (alpha * D) +
      5 * (t * t) * (Rabs alpha * B) + 21 * (IZR n * Rabs alpha + 1) * bp (-1074).
Proof.
  intros TP L m res alpha X Y B VX VY WX WY LX LY El Fa FX FY Hn n D B' t.
  destruct (C71_ext_adot _ _ _ _ L m res alpha X Y B VX VY WX WY LX LY El Fa FX FY) as (r & E & Fr & Br).
  exists r. split; [exact E|]. split; [exact Fr|]. apply Rle_trans with (1 := Br). fold n D B'.
  pose proof (vlen_nonneg X WX) as Pn.
  destruct (up_lin 53 (vlen X + 6) ltac:(lia) Hn) as [L6 U6]. fold n t in L6, U6, Hn. set (g := up 53 (n + 6)) in *.
  rewrite Rplus_assoc. apply Rplus_le_compat_l.
  assert (PB : 0 <= B') by (apply SUM_pos; intros; apply Rabs_pos). pose proof (Rabs_pos alpha) as Pa.
  assert (PnR : 0 <= IZR n) by (apply IZR_le; exact Pn).
  pose proof (u_pos 53) as Pu. assert (Su : uro 53 <= / 1024) by (change (/ 1024) with (bp (-10)); apply bpow_le; lia).
  change (omega (-1074)) with (bp (-1074)). pose proof (bpow_gt_0 radix2 (-1074)) as Pw. set (w := bp (-1074)) in *.
  assert (G1 : (g - 1) * (g - 1) <= (2 * t) * (2 * t)) by (apply Rmult_le_compat; lra).
  assert (G2 : g * g <= 2 * 2) by (apply Rmult_le_compat; lra).
  set (P := Rabs alpha * B'). assert (PP : 0 <= P) by (apply Rmult_le_pos; auto).
  set (q := (IZR n * Rabs alpha + 1) * w).
  assert (Pq : 0 <= q) by (apply Rmult_le_pos; [|lra]; assert (0 <= IZR n * Rabs alpha) by (apply Rmult_le_pos; auto); lra).
  replace (21 * (IZR n * Rabs alpha + 1) * w) with (21 * q) by (unfold q; ring).
  replace ((g - 1) * (g - 1) + 0 * (1 + g)) with ((g - 1) * (g - 1)) by ring.
  assert (A1 : (g - 1) * (g - 1) * P <= 2 * t * (2 * t) * P) by (apply Rmult_le_compat_r; auto).
  assert (A2 : g * g * q <= 2 * 2 * q) by (apply Rmult_le_compat_r; auto).
  assert (A3 : 0 <= 2 * t * (2 * t) * P) by (apply Rmult_le_pos; [|auto]; nra).
  apply Rle_trans with ((1 + uro 53) * (2 * t * (2 * t) * P + 5 * (2 * 2 * q))).
  - apply Rmult_le_compat_l; lra.
  - assert (0 <= t * t * P) by nra. nra.
Qed.
Print Assumptions C71_ext_adot_double.

(* operands that are not vectors of one length: error, nothing changed *)
Theorem C71_ext_adot_errors : forall T (K : num T) TP L m res alpha X Y,
  ~ isvec X \/ ~ isvec Y \/ vlen X <> vlen Y ->
  exists err, armas_ext_adot K TP res alpha X Y L m = Some ((-1, err, res)%Z, m) /\
    err = (if armas_isvector X && armas_isvector Y then ARMAS_ESIZE else ARMAS_ENEED_VECTOR).
Proof.
  intros T K TP L m res alpha X Y H. eexists. split; [|reflexivity]. unfold armas_ext_adot.
  destruct (armas_isvector X) eqn:EX; [|reflexivity]. destruct (armas_isvector Y) eqn:EY; [|reflexivity]. cbn [negb orb andb].
  apply isvector_isvec in EX, EY. change (armas_size X) with (vlen X). change (armas_size Y) with (vlen Y).
  destruct (Z.eqb_spec (vlen X) (vlen Y)) as [E|E]; [|reflexivity]. destruct H as [H|[H|H]]; contradiction.
Qed.
Print Assumptions C71_ext_adot_errors.

Example C71_nonvacuous : forall prec emin TP eps, build prec emin TP eps ->
  isvec b1_row /\ isvec b1_col /\ wf b1_row /\ wf b1_col /\ allocated cp_L b1_row /\ allocated cp_L b1_col /\
  vlen b1_row = vlen b1_col /\ vlen b1_row = 6%Z /\ float prec emin 3 /\
  let m := fun a => IZR (a * a - 12000) in
  (forall k, (0 <= k < vlen b1_row)%Z -> float prec emin (velt m b1_row k)) /\
  (forall k, (0 <= k < vlen b1_row)%Z -> float prec emin (velt m b1_col k)).
Proof.
  intros prec emin TP eps B. pose proof b1_ok as (H1 & H2 & H3 & H4 & H5 & H6 & H7 & H8).
  destruct (build_ok _ _ _ _ B) as (Hp & He & _).
  split; [exact H1|]. split; [exact H2|]. split; [exact H3|]. split; [exact H4|]. split; [exact H5|]. split; [exact H6|].
  split; [reflexivity|]. split; [reflexivity|]. split.
  - apply (float_int prec emin Hp He 3). apply Z.lt_le_trans with (2 ^ 2)%Z; [reflexivity|apply Z.pow_le_mono_r; lia].
  - split; [|change (vlen b1_row) with (vlen b1_col)];
    apply (ext_ints _ _ _ _ B cp_L); auto; intros a Ha; unfold cp_L in Ha; apply andb_prop in Ha; nia.
Qed.

(* ---- C72 ---- *)

(* every element of y becomes alpha*x + beta*y rounded, up to terms of second order *)
Theorem C72_ext_axpby : forall prec emin TP eps L m beta y alpha x, build prec emin TP eps ->
  isvec y -> isvec x -> wf y -> wf x -> allocated L y -> allocated L x -> disjoint y x -> vlen y = vlen x ->
  float prec emin beta -> float prec emin alpha ->
  (forall k, (0 <= k < vlen x)%Z -> float prec emin (velt m x k)) ->
  (forall k, (0 <= k < vlen x)%Z -> float prec emin (velt m y k)) ->
  exists m', armas_ext_axpby (Fnum prec emin) TP beta y alpha x L m = Some ((0, 0)%Z, m') /\
    (forall k, (0 <= k < vlen y)%Z -> let v := alpha * velt m x k + beta * velt m y k in
       float prec emin (velt m' y k) /\
       Rabs (velt m' y k - v) <= uro prec * Rabs v +
         (1 + uro prec) * (((up prec 2 - 1) * (up prec 4 - 1) + eps) * (Rabs (alpha * velt m x k) + Rabs (beta * velt m y k)) + 16 * omega emin)) /\
    only_changes y m m'.
Proof.
  intros prec emin TP eps L m beta y alpha x B Vy Vx Wy Wx Ly Lx D El Fb Fa Fx Fy.
  destruct (build_ok _ _ _ _ B) as (Hp & He & HT).
  assert (W : wp (armas_ext_axpby (Fnum prec emin) TP beta y alpha x) L m (fun r m' => r = (0, 0)%Z /\
    (forall k, (0 <= k < vlen y)%Z -> let v := alpha * velt m x k + beta * velt m y k in
       float prec emin (velt m' y k) /\
       Rabs (velt m' y k - v) <= uro prec * Rabs v +
         (1 + uro prec) * (((up prec 2 - 1) * (up prec 4 - 1) + eps) * (Rabs (alpha * velt m x k) + Rabs (beta * velt m y k)) + 16 * omega emin)) /\
    only_changes y m m')).
  { unfold armas_ext_axpby. apply isvector_isvec in Vy as E1. apply isvector_isvec in Vx as E2. rewrite E1, E2. cbn [andb negb].
    change (armas_size x) with (vlen x). change (armas_size y) with (vlen y). rewrite El, Z.eqb_refl. cbn [negb].
    wbind. unfold armas_ext_axpby_unsafe. cbn [eqb one Fnum].
    unfold Reqb. destruct (Req_EM_T beta 1) as [->|Nb].
    - unfold armas_ext_axpy_unsafe. change (armas_size x) with (vlen x). cbv zeta.
      apply (ext_loop_wp L (axpy1 (Fnum prec emin) TP alpha)); auto. intros m' U. apply wp_ret. split; [reflexivity|]. split.
      + intros k Hk. cbv zeta. rewrite !velt_vad. rewrite (upd_new _ _ _ _ _ k U) by (unfold vdom; lia). rewrite Rmult_1_l.
        apply (axpy1_ok prec emin ltac:(lia) He eps TP HT); auto.
        * apply Fx. lia.
        * apply Fy. lia.
      + eapply vupd_only; eauto.
    - change (armas_size x) with (vlen x). cbv zeta.
      apply (ext_loop_wp L (axpby1 (Fnum prec emin) TP beta alpha)); auto. intros m' U. apply wp_ret. split; [reflexivity|]. split.
      + intros k Hk. cbv zeta. rewrite !velt_vad. rewrite (upd_new _ _ _ _ _ k U) by (unfold vdom; lia).
        apply (axpby1_ok prec emin ltac:(lia) He eps TP HT); auto.
        * apply Fx. lia.
        * apply Fy. lia.
      + eapply vupd_only; eauto. }
  destruct W as (r & m' & E & -> & H1 & H2). exists m'. auto.
Qed.
Print Assumptions C72_ext_axpby.

Theorem C72_ext_axpby_errors : forall T (K : num T) TP L m beta y alpha x,
  ~ isvec x \/ ~ isvec y \/ vlen x <> vlen y ->
  exists err, armas_ext_axpby K TP beta y alpha x L m = Some ((-1, err)%Z, m) /\
    err = (if armas_isvector x && armas_isvector y then ARMAS_ESIZE else ARMAS_ENEED_VECTOR).
Proof.
  intros T K TP L m beta y alpha x H. eexists. split; [|reflexivity]. unfold armas_ext_axpby.
  destruct (armas_isvector x) eqn:EX; [|reflexivity]. destruct (armas_isvector y) eqn:EY; [|reflexivity]. cbn [negb orb andb].
  apply isvector_isvec in EX, EY. change (armas_size x) with (vlen x). change (armas_size y) with (vlen y).
  destruct (Z.eqb_spec (vlen x) (vlen y)) as [E|E]; [|reflexivity]. destruct H as [H|[H|H]]; contradiction.
Qed.
Print Assumptions C72_ext_axpby_errors.

Example C72_nonvacuous : forall prec emin TP eps, build prec emin TP eps ->
  isvec b1_row /\ isvec b1_col /\ wf b1_row /\ wf b1_col /\ allocated cp_L b1_row /\ allocated cp_L b1_col /\
  disjoint b1_row b1_col /\ vlen b1_row = vlen b1_col /\ float prec emin 3 /\
  let m := fun a => IZR (a * a - 12000) in
  (forall k, (0 <= k < vlen b1_col)%Z -> float prec emin (velt m b1_col k)) /\
  (forall k, (0 <= k < vlen b1_col)%Z -> float prec emin (velt m b1_row k)).
Proof.
  intros prec emin TP eps B. pose proof b1_ok as (H1 & H2 & H3 & H4 & H5 & H6 & H7 & H8).
  pose proof (C71_nonvacuous _ _ _ _ B) as (_ & _ & _ & _ & _ & _ & _ & _ & F & G & I).
  do 8 (split; [assumption|]). split; [exact F|]. split; [exact I|exact G].
Qed.
