(* Properties_Round.v: C73 inner products, C74 sums of magnitudes in floating-point
   arithmetic: the ordinary functions of src/blas/{dot,asum}.c. *)
From Coq Require Import ZArith Lia Bool Reals Lra.
From Flocq Require Import Core.
From Verif Require Import Mem MView SpecView MFlags MCopy MNum SpecNum MBlas1 SpecFloat Hoare
  PUpd PSum PBlas1 PCopy Inst PFloat PExt PRound Properties_Copy Properties_Blas1.
Local Open Scope R_scope.
Local Notation "'SUM' n f" := (vsum Rnum n f) (at level 10, n at level 9, f at level 9).

(* ---- C73 ---- *)

(* whatever the strategy and the threshold of the recursion: the error of n terms
   is that of n roundings *)
Theorem C73_dot : forall prec emin fuel L m blas1min optflags x y, (3 < prec)%Z ->
  isvec x -> isvec y -> wf x -> wf y -> allocated L x -> allocated L y ->
  vlen x = vlen y -> (0 <= blas1min)%Z -> (vlen x < Z.of_nat fuel)%Z ->
  (forall k, (0 <= k < vlen x)%Z -> float prec emin (velt m x k)) ->
  (forall k, (0 <= k < vlen x)%Z -> float prec emin (velt m y k)) ->
  let n := vlen x in
  let D := SUM n (fun k => velt m x k * velt m y k) in
  let B := SUM n (fun k => Rabs (velt m x k * velt m y k)) in
  exists r, armas_dot (Fnum prec emin) fuel blas1min optflags x y L m = Some (r, m) /\ float prec emin r /\
    Rabs (r - D) <= (up prec n - 1) * B + up prec n * (IZR n * (/ 2 * omega emin)).
Proof.
  intros prec emin fuel L m blas1min optflags x y Hp Vx Vy Wx Wy Lx Ly Hl Hb Hf FX FY n D B.
  destruct (adot_round prec emin Hp fuel L m blas1min optflags 0 1 x y Vx Vy Wx Wy Lx Ly Hl Hb Hf FX FY) as (d & Hd & E).
  pose proof (w_pos emin) as Pw. pose proof (vlen_nonneg x Wx) as Pn.
  assert (Fd : float prec emin d) by exact (proj1 Hd).
  exists d. split; [|split; [exact Fd|]].
  - unfold armas_dot. rewrite run_bind. cbn [zero one Fnum]. rewrite E. cbn [fst snd]. rewrite Rmult_1_l, (rnd_float prec emin d Fd), Rplus_0_l, (rnd_float prec emin d Fd).
    reflexivity.
  - unfold fdot in Hd. fold n D B in Hd. destruct Hd as (_ & _ & H0 & H1). destruct (Z.eq_dec n 0) as [Z0|N0].
    + destruct (H0 Z0) as (-> & -> & ->). rewrite Z0, Rminus_0_r, Rabs_R0. lra.
    + destruct (H1 ltac:(fold n in Pn; lia)) as (_ & _ & _ & _ & Q). replace (n - 1 + 1)%Z with n in Q by lia.
      apply Rle_trans with (1 := Q). right. ring.
Qed.
Print Assumptions C73_dot.

Theorem C73_adot : forall prec emin fuel L m blas1min optflags value alpha x y, (3 < prec)%Z ->
  isvec x -> isvec y -> wf x -> wf y -> allocated L x -> allocated L y ->
  vlen x = vlen y -> (0 <= blas1min)%Z -> (vlen x < Z.of_nat fuel)%Z -> float prec emin value -> float prec emin alpha ->
  (forall k, (0 <= k < vlen x)%Z -> float prec emin (velt m x k)) ->
  (forall k, (0 <= k < vlen x)%Z -> float prec emin (velt m y k)) ->
  let n := vlen x in
  let D := SUM n (fun k => velt m x k * velt m y k) in
  let B := SUM n (fun k => Rabs (velt m x k * velt m y k)) in
  exists r, armas_adot (Fnum prec emin) fuel blas1min optflags value alpha x y L m = Some ((0%Z, r), m) /\ float prec emin r /\
    Rabs (r - (value + alpha * D)) <= (up prec (n + 2) - 1) * (Rabs value + Rabs alpha * B) +
      up prec (n + 2) * ((IZR n * Rabs alpha + 1) * (/ 2 * omega emin)).
Proof.
  intros prec emin fuel L m blas1min optflags value alpha x y Hp Vx Vy Wx Wy Lx Ly Hl Hb Hf Fv Fa FX FY n D B.
  destruct (adot_round prec emin Hp fuel L m blas1min optflags value alpha x y Vx Vy Wx Wy Lx Ly Hl Hb Hf FX FY) as (d & Hd & E).
  pose proof (w_pos emin) as Pw. eexists. split; [exact E|]. split; [apply float_rnd; auto|].
  unfold fdot in Hd. fold n D B in Hd. destruct Hd as (_ & _ & H0 & H1).
  pose proof (vlen_nonneg x Wx) as Pn. fold n in Pn. destruct (Z.eq_dec n 0) as [Z0|N0].
  - destruct (H0 Z0) as (-> & -> & ->). rewrite Rmult_0_r, rnd_0, Rplus_0_r, (rnd_float prec emin value Fv).
    rewrite Z0, Rminus_diag_eq, Rabs_R0, !Rmult_0_r, Rmult_0_l, Rplus_0_l, Rplus_0_r by reflexivity.
    pose proof (G_ge1 prec (0 + 2)). pose proof (Rabs_pos value).
    assert (0 <= (up prec (0 + 2) - 1) * Rabs value) by (apply Rmult_le_pos; lra).
    assert (0 <= up prec (0 + 2) * (1 * (/ 2 * omega emin))) by (apply Rmult_le_pos; lra). lra.
  - specialize (H1 ltac:(lia)). pose proof (fs_scale prec emin Hp _ _ _ _ _ alpha H1 Fa) as H2.
    pose proof (fs_add_r prec emin Hp _ _ _ _ _ value H2 Fv) as H3.
    destruct H3 as (_ & _ & _ & _ & Q). replace (n - 1 + 1 + 1 + 1)%Z with (n + 2)%Z in Q by lia.
    rewrite (Rplus_comm value), (Rplus_comm value). apply Rle_trans with (1 := Q). right. ring.
Qed.
Print Assumptions C73_adot.

Lemma round_ints : forall prec emin, (23 < prec)%Z -> (emin < 0)%Z ->
  forall L X m, allocated L X -> isvec X -> wf X -> (forall a, L a = true -> (Z.abs (m a) < 2 ^ 24)%Z) ->
  forall k, (0 <= k < vlen X)%Z -> float prec emin (velt (fun a => IZR (m a)) X k).
Proof.
  intros prec emin Hp He L X m LX VX WX Hm k Hk. rewrite velt_vad.
  apply generic_format_FLT. exists (Float radix2 (m (vad X k)) 0).
  - unfold F2R. cbn [Defs.Fnum Fexp bpow]. ring.
  - cbn [Defs.Fnum]. apply Z.lt_le_trans with (2 ^ 24)%Z; [apply Hm, LX, vad_cell; auto|].
    change (Zpower radix2 prec) with (2 ^ prec)%Z. apply Z.pow_le_mono_r; lia.
  - cbn [Fexp]. lia.
Qed.

Example C73_nonvacuous :
  isvec b1_row /\ isvec b1_col /\ wf b1_row /\ wf b1_col /\ allocated cp_L b1_row /\ allocated cp_L b1_col /\
  vlen b1_row = vlen b1_col /\ (vlen b1_row < Z.of_nat 10)%Z /\ vlen b1_row = 6%Z /\ float32 3 /\
  let m := fun a => IZR (a * a - 12000) in
  (forall k, (0 <= k < vlen b1_row)%Z -> float32 (velt m b1_row k)) /\
  (forall k, (0 <= k < vlen b1_row)%Z -> float32 (velt m b1_col k)).
Proof.
  pose proof b1_ok as (H1 & H2 & H3 & H4 & H5 & H6 & H7 & H8).
  do 6 (split; [assumption|]). split; [reflexivity|]. split; [reflexivity|]. split; [reflexivity|]. split.
  - apply generic_format_FLT. exists (Float radix2 3 0); [|reflexivity|cbn; lia]. unfold F2R. cbn [Defs.Fnum Fexp bpow]. ring.
  - split; [|change (vlen b1_row) with (vlen b1_col)]; apply (round_ints 24 (-149) eq_refl eq_refl cp_L); auto;
      intros a Ha; unfold cp_L in Ha; apply andb_prop in Ha; nia.
Qed.

(* ---- C74 ---- *)

(* the plain and the recursive sum: a sum of n terms has n-1 roundings *)
Theorem C74_asum : forall prec emin fuel L m blas1min optflags x, (3 < prec)%Z ->
  isvec x -> wf x -> allocated L x -> (1 <= blas1min)%Z -> (vlen x < Z.of_nat fuel)%Z ->
  Z.land optflags (ARMAS_ONAIVE + ARMAS_OKAHAN + ARMAS_ORECURSIVE) <> ARMAS_OKAHAN ->
  (forall k, (0 <= k < vlen x)%Z -> float prec emin (velt m x k)) ->
  let n := vlen x in let S := SUM n (fun k => Rabs (velt m x k)) in
  exists r, armas_asum (Fnum prec emin) fuel blas1min optflags x L m = Some (r, m) /\ float prec emin r /\
    Rabs (r - S) <= (up prec (n - 1) - 1) * S.
Proof.
  intros prec emin fuel L m blas1min optflags x Hp Vx Wx Lx Hb Hf Ho FX n S. pose proof (vlen_nonneg x Wx) as Pn.
  assert (W : wp (armas_asum (Fnum prec emin) fuel blas1min optflags x) L m (fun r m' => m' = m /\ fasum prec emin n (fun k => Rabs (velt m x k)) r)).
  { unfold armas_asum. apply isvector_isvec in Vx as E1. rewrite E1. cbn [negb]. cbv zeta.
    change (armas_size x) with (vlen x).
    apply wp_if; intros E; [apply Z.eqb_eq in E; contradiction|].
    apply wp_if; intros E'; [apply vec_asum_rwp; auto; lia|].
    apply vec_asum_rec_rwp; auto; lia. }
  destruct W as (r & m' & E & -> & Hd). exists r. split; [exact E|]. destruct Hd as (Fr & _ & H0 & H1). split; [exact Fr|].
  fold S in H0, H1. assert (ES : SUM n (fun k => Rabs (Rabs (velt m x k))) = S) by (apply SUM_ext; intros; apply Rabs_Rabsolu).
  rewrite ES in H0, H1. destruct (Z.eq_dec n 0) as [Z0|N0].
  - destruct (H0 Z0) as (-> & -> & _). rewrite Rminus_0_r, Rabs_R0. lra.
  - destruct (H1 ltac:(fold n in Pn; lia)) as (_ & _ & _ & _ & Q). rewrite Z.add_0_r in Q.
    apply Rle_trans with (1 := Q). right. ring.
Qed.
Print Assumptions C74_asum.

(* the compensated sum: the error does not grow with the length, to first order *)
Theorem C74_asum_kahan : forall prec emin fuel L m blas1min optflags x, (9 < prec)%Z ->
  isvec x -> wf x -> allocated L x -> IZR (vlen x) * uro prec <= 1 ->
  Z.land optflags (ARMAS_ONAIVE + ARMAS_OKAHAN + ARMAS_ORECURSIVE) = ARMAS_OKAHAN ->
  (forall k, (0 <= k < vlen x)%Z -> float prec emin (velt m x k)) ->
  let n := vlen x in let S := SUM n (fun k => Rabs (velt m x k)) in
  exists r, armas_asum (Fnum prec emin) fuel blas1min optflags x L m = Some (r, m) /\ float prec emin r /\
    Rabs (r - S) <= (6 * uro prec + 18 * IZR n * (uro prec * uro prec)) * S.
Proof.
  intros prec emin fuel L m blas1min optflags x Hp Vx Wx Lx Hn Ho FX n S. pose proof (vlen_nonneg x Wx) as Pn.
  assert (W : wp (armas_asum (Fnum prec emin) fuel blas1min optflags x) L m (fun r m' => m' = m /\ float prec emin r /\
    Rabs (r - S) <= (6 * uro prec + 18 * IZR n * (uro prec * uro prec)) * S)).
  { unfold armas_asum. apply isvector_isvec in Vx as E1. rewrite E1. cbn [negb]. cbv zeta.
    change (armas_size x) with (vlen x). rewrite Ho, Z.eqb_refl.
    apply vec_asum_kahan_rwp; auto; try lia. }
  destruct W as (r & m' & E & -> & Fr & B). exists r. auto.
Qed.
Print Assumptions C74_asum_kahan.

Example C74_nonvacuous :
  isvec b1_row /\ wf b1_row /\ allocated cp_L b1_row /\ (vlen b1_row < Z.of_nat 10)%Z /\ IZR (vlen b1_row) * uro 24 <= 1 /\
  Z.land 0 (ARMAS_ONAIVE + ARMAS_OKAHAN + ARMAS_ORECURSIVE) <> ARMAS_OKAHAN /\
  Z.land ARMAS_OKAHAN (ARMAS_ONAIVE + ARMAS_OKAHAN + ARMAS_ORECURSIVE) = ARMAS_OKAHAN /\
  (forall k, (0 <= k < vlen b1_row)%Z -> float32 (velt (fun a => IZR (a * a - 12000)) b1_row k)).
Proof.
  pose proof C73_nonvacuous as (H1 & _ & H3 & _ & H5 & _ & _ & _ & _ & _ & H7 & _).
  do 3 (split; [assumption|]). split; [reflexivity|]. split.
  - change (IZR (vlen b1_row)) with 6. change (uro 24) with (/ 16777216). lra.
  - split; [discriminate|]. split; [reflexivity|]. exact H7.
Qed.
