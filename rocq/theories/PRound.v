(* PRound.v: rounding errors of the ordinary inner product and sum (MBlas1.v): any tree of
   additions of n terms, zeros added here and there, rounds a term at most n-1 times. *)
From Coq Require Import ZArith Lia Bool Reals Lra.
From Flocq Require Import Core.
From Verif Require Import Mem MView SpecView MFlags MCopy MNum SpecNum MBlas1 SpecFloat Hoare
  PUpd PSum PBlas1 PCopy Inst PFloat PExt.
Local Open Scope R_scope.
Local Notation "'SUM' n f" := (vsum Rnum n f) (at level 10, n at level 9, f at level 9).

Section Round.
  Variable prec emin : Z.
  Hypothesis Hprec : (3 < prec)%Z.
  Local Notation flt := (float prec emin).
  Local Notation rn := (rnd prec emin).
  Local Notation u := (uro prec).
  Local Notation w := (omega emin).
  Local Notation G := (up prec).
  Local Notation K := (Fnum prec emin).
  Local Notation fs := (fs prec emin).

  Section Tree.
    (* a term is rounded k0 times, with absolute error rr *)
    Variable k0 : Z.
    Variable rr : R.
    Hypothesis Hk0 : (0 <= k0)%Z.

    (* a: c terms added; their sum E and the sum of their magnitudes F *)
    Definition pk (c : Z) (a E F : R) : Prop :=
      flt a /\ (0 <= c)%Z /\ (c = 0%Z -> a = 0 /\ E = 0 /\ F = 0) /\
      ((1 <= c)%Z -> fs (c - 1 + k0) a E F (IZR c * rr)).

    Lemma pk_0 : pk 0 0 0 0.
    Proof. split; [apply float_0|]. split; [lia|]. split; [auto|lia]. Qed.
    Lemma pk_leaf : forall p e, fs k0 p e (Rabs e) rr -> pk 1 p e (Rabs e).
    Proof.
      intros p e H. split; [apply H|]. split; [lia|]. split; [lia|]. intros _.
      replace (1 - 1 + k0)%Z with k0 by lia. rewrite Rmult_1_l. exact H.
    Qed.
    Lemma pk_add : forall c a E F c' a' E' F', pk c a E F -> pk c' a' E' F' ->
      pk (c + c') (rn (a + a')) (E + E') (F + F').
    Proof.
      intros c a E F c' a' E' F' (H1 & H2 & H3 & H4) (H1' & H2' & H3' & H4').
      split; [apply float_rnd; auto|]. split; [lia|].
      destruct (Z.eq_dec c 0) as [Z0|N0]; [|destruct (Z.eq_dec c' 0) as [Z0'|N0']].
      - destruct (H3 Z0) as (-> & -> & ->). subst c. rewrite Z.add_0_l, !Rplus_0_l, rnd_float by auto. auto.
      - destruct (H3' Z0') as (-> & -> & ->). subst c'. rewrite Z.add_0_r, !Rplus_0_r, rnd_float by auto. auto.
      - split; [lia|]. intros _.
        replace (IZR (c + c') * rr) with (IZR c * rr + IZR c' * rr) by (rewrite plus_IZR; ring).
        apply fs_mono with (Z.max (c - 1 + k0) (c' - 1 + k0) + 1)%Z; [lia|].
        apply fs_add; auto.
        + apply fs_mono with (c - 1 + k0)%Z; [lia|]. apply H4. lia.
        + apply fs_mono with (c' - 1 + k0)%Z; [lia|]. apply H4'. lia.
    Qed.
    Lemma pk_eq : forall c a E F c' a' E' F', pk c a E F -> c = c' -> a = a' -> E = E' -> F = F' -> pk c' a' E' F'.
    Proof. intros. subst. auto. Qed.
    Lemma pk_fs : forall c a E F, pk c a E F -> 0 <= rr -> fs (c + k0) a E F (IZR c * rr).
    Proof.
      intros c a E F (H1 & H2 & H3 & H4) Hr. destruct (Z.eq_dec c 0) as [Z0|N0].
      - destruct (H3 Z0) as (-> & -> & ->). subst c. rewrite Rmult_0_l. apply fs_zero; lia.
      - apply fs_mono with (c - 1 + k0)%Z; [lia|]. apply H4. lia.
    Qed.

    Definition pk4 (n : Z) (st : R * R * R * R) (E F : R) : Prop :=
      let '(a0, a1, a2, a3) := st in
      exists c0 c1 c2 c3 E0 E1 E2 E3 F0 F1 F2 F3,
        pk c0 a0 E0 F0 /\ pk c1 a1 E1 F1 /\ pk c2 a2 E2 F2 /\ pk c3 a3 E3 F3 /\
        (c0 + c1 + c2 + c3)%Z = n /\ E0 + E1 + E2 + E3 = E /\ F0 + F1 + F2 + F3 = F.
    Lemma pk4_0 : pk4 0 (0, 0, 0, 0) 0 0.
    Proof.
      exists 0%Z, 0%Z, 0%Z, 0%Z, 0, 0, 0, 0, 0, 0, 0, 0. pose proof pk_0. do 4 (split; [auto|]). split; [reflexivity|]. lra.
    Qed.
    Lemma pk4_final : forall n a0 a1 a2 a3 E F, pk4 n (a0, a1, a2, a3) E F -> pk n (rn (rn (rn (a0 + a1) + a2) + a3)) E F.
    Proof.
      intros n a0 a1 a2 a3 E F (c0 & c1 & c2 & c3 & E0 & E1 & E2 & E3 & F0 & F1 & F2 & F3 & H0 & H1 & H2 & H3 & <- & <- & <-).
      apply pk_add; auto. apply pk_add; auto. apply pk_add; auto.
    Qed.
    Lemma pk4_four : forall n a0 a1 a2 a3 E F p0 p1 p2 p3 e0 e1 e2 e3, pk4 n (a0, a1, a2, a3) E F ->
      fs k0 p0 e0 (Rabs e0) rr -> fs k0 p1 e1 (Rabs e1) rr -> fs k0 p2 e2 (Rabs e2) rr -> fs k0 p3 e3 (Rabs e3) rr ->
      pk4 (n + 4) (rn (a0 + p0), rn (a1 + p1), rn (a2 + p2), rn (a3 + p3)) (E + e0 + e1 + e2 + e3) (F + Rabs e0 + Rabs e1 + Rabs e2 + Rabs e3).
    Proof.
      intros n a0 a1 a2 a3 E F p0 p1 p2 p3 e0 e1 e2 e3
        (c0 & c1 & c2 & c3 & E0 & E1 & E2 & E3 & F0 & F1 & F2 & F3 & H0 & H1 & H2 & H3 & <- & <- & <-) L0 L1 L2 L3.
      exists (c0 + 1)%Z, (c1 + 1)%Z, (c2 + 1)%Z, (c3 + 1)%Z, (E0 + e0), (E1 + e1), (E2 + e2), (E3 + e3),
        (F0 + Rabs e0), (F1 + Rabs e1), (F2 + Rabs e2), (F3 + Rabs e3).
      do 4 (split; [apply pk_add; auto; apply pk_leaf; auto|]). split; [lia|]. split; ring.
    Qed.
    Lemma pk4_one : forall n a0 a1 a2 a3 E F p e, pk4 n (a0, a1, a2, a3) E F -> fs k0 p e (Rabs e) rr ->
      pk4 (n + 1) (rn (a0 + p), a1, a2, a3) (E + e) (F + Rabs e) /\
      pk4 (n + 1) (a0, rn (a1 + p), a2, a3) (E + e) (F + Rabs e) /\
      pk4 (n + 1) (a0, a1, rn (a2 + p), a3) (E + e) (F + Rabs e).
    Proof.
      intros n a0 a1 a2 a3 E F p e
        (c0 & c1 & c2 & c3 & E0 & E1 & E2 & E3 & F0 & F1 & F2 & F3 & H0 & H1 & H2 & H3 & <- & <- & <-) L0. split; [|split].
      - exists (c0 + 1)%Z, c1, c2, c3, (E0 + e), E1, E2, E3, (F0 + Rabs e), F1, F2, F3.
        split; [apply pk_add; auto; apply pk_leaf; auto|]. do 3 (split; [assumption|]). split; [lia|]. split; ring.
      - exists c0, (c1 + 1)%Z, c2, c3, E0, (E1 + e), E2, E3, F0, (F1 + Rabs e), F2, F3. split; [assumption|].
        split; [apply pk_add; auto; apply pk_leaf; auto|]. do 2 (split; [assumption|]). split; [lia|]. split; ring.
      - exists c0, c1, (c2 + 1)%Z, c3, E0, E1, (E2 + e), E3, F0, F1, (F2 + Rabs e), F3. do 2 (split; [assumption|]).
        split; [apply pk_add; auto; apply pk_leaf; auto|]. split; [assumption|]. split; [lia|]. split; ring.
    Qed.
  End Tree.

  Lemma fs_prod : forall x y, flt x -> flt y -> fs 1 (rn (x * y)) (x * y) (Rabs (x * y)) (/ 2 * w).
  Proof.
    intros x y Hx Hy. pose proof (fs_scale prec emin Hprec 0 y y (Rabs y) 0 x (fs_leaf prec emin y Hy) Hx) as H.
    replace (Rabs x * 0 + / 2 * w) with (/ 2 * w) in H by ring. rewrite Rabs_mult. exact H.
  Qed.

  (* ------------------------------------------------------------------ dot *)
  Local Notation dk := (pk 1 (/ 2 * w)).
  Definition fdot (n : Z) (f : Z -> R) (r : R) : Prop := dk n r (SUM n f) (SUM n (fun k => Rabs (f k))).
  Definition vflt (m : Z -> R) (X : view) (n : Z) : Prop := forall k, (0 <= k < n)%Z -> flt (velt m X k).

  Lemma vec_dot_rwp : forall L X Y n m (Q : R -> (Z -> R) -> Prop),
    isvec X -> isvec Y -> wf X -> wf Y -> allocated L X -> allocated L Y ->
    (0 <= n <= vlen X)%Z -> (n <= vlen Y)%Z -> vflt m X n -> vflt m Y n ->
    (forall r, fdot n (fun k => velt m X k * velt m Y k) r -> Q r m) ->
    wp (vec_dot K X Y n) L m Q.
  Proof.
    intros L X Y n m Q VX VY WX WY LX LY Hn Hn' FX FY HQ. unfold vec_dot. wbind.
    set (f := fun k => velt m X k * velt m Y k) in *.
    assert (LF : forall k, (0 <= k < n)%Z -> fs 1 (rn (m (vad X k) * m (vad Y k))) (f k) (Rabs (f k)) (/ 2 * w)).
    { intros k Hk. apply fs_prod; [apply FX|apply FY]; lia. }
    apply wp_unroll4_acc with (I := fun i c m' => m' = m /\ pk4 1 (/ 2 * w) i c (SUM i f) (SUM i (fun k => Rabs (f k)))); auto; try lia.
    - split; auto. rewrite !SUM_0. apply pk4_0.
    - intros i [[[c0 c1] c2] c3] m' Hi Hi3 (-> & IH). do 4 (vrd X). do 4 (vrd Y). apply wp_ret.
      split; auto. rewrite !SUM_S4 by lia. apply pk4_four; auto; try lia; apply LF; lia.
    - intros i [[[c0 c1] c2] c3] m' Hi (-> & IH). vrd X. vrd Y. apply wp_ret. split; [reflexivity|]. rewrite !SUM_S by lia.
      destruct (pk4_one 1 (/ 2 * w) _ _ _ _ _ _ _ _ _ IH (LF i Hi)) as (P1 & P2 & P3).
      destruct (n - i =? 3)%Z; [exact P1|]. destruct (n - i =? 2)%Z; [exact P2|exact P3].
    - intros [[[c0 c1] c2] c3] m' (-> & IH). apply wp_ret. apply HQ. apply pk4_final; auto.
  Qed.

  Section Cat.
    Variable k0 : Z.
    Variable rr : R.
    Hypothesis Hk0 : (0 <= k0)%Z.
    Definition psum (n : Z) (f : Z -> R) (r : R) : Prop := pk k0 rr n r (SUM n f) (SUM n (fun k => Rabs (f k))).
    Lemma psum_cat : forall a b f r0 r1, (0 <= a)%Z -> (0 <= b)%Z -> psum a f r0 -> psum b (fun k => f (a + k)%Z) r1 ->
      psum (a + b) f (rn (r0 + r1)).
    Proof.
      intros a b f r0 r1 Ha Hb H0 H1. unfold psum. rewrite !(vsum_split Rnum R_ring) by lia. apply pk_add; auto.
    Qed.
    Lemma psum_ext : forall n f g r, (forall k, (0 <= k < n)%Z -> f k = g k) -> psum n f r -> psum n g r.
    Proof.
      intros n f g r E H. unfold psum in *. rewrite <- (SUM_ext n f g), <- (SUM_ext n (fun k => Rabs (f k)) (fun k => Rabs (g k))); auto.
      intros k Hk. rewrite E; auto.
    Qed.
    (* the two ways the recursive sums cut a vector *)
    Lemma psum_2 : forall n f r0 r1, (0 <= n)%Z -> psum (n / 2) (fun k => f (0 + k)%Z) r0 ->
      psum (n - n / 2) (fun k => f (n / 2 + k)%Z) r1 -> psum n f (rn (r0 + r1)).
    Proof.
      intros n f r0 r1 Hn H0 H1. destruct (quot_facts n Hn) as (_ & _ & F1 & F2 & F3 & F4 & F5).
      replace n with (n / 2 + (n - n / 2))%Z by lia. apply psum_cat; auto; lia.
    Qed.
    Lemma psum_4 : forall n f r0 r1 r2 r3, (0 <= n)%Z -> psum (n / 4) (fun k => f (0 + k)%Z) r0 ->
      psum (n / 2 - n / 4) (fun k => f (n / 4 + k)%Z) r1 -> psum (n / 4) (fun k => f (n / 2 + k)%Z) r2 ->
      psum (n - n / 2 - n / 4) (fun k => f (n / 2 + n / 4 + k)%Z) r3 -> psum n f (rn (rn (rn (r0 + r1) + r2) + r3)).
    Proof.
      intros n f r0 r1 r2 r3 Hn H0 H1 H2 H3. destruct (quot_facts n Hn) as (_ & _ & F1 & F2 & F3 & F4 & F5).
      replace n with (n / 2 + n / 4 + (n - n / 2 - n / 4))%Z by lia. apply psum_cat; [lia|lia| |exact H3].
      apply psum_cat; [lia|lia| |exact H2].
      replace (n / 2)%Z with (n / 4 + (n / 2 - n / 4))%Z by lia. apply psum_cat; [lia|lia|exact H0|exact H1].
    Qed.
  End Cat.

  Lemma vec_dot_rsub : forall L X Y n len m (Q : R -> (Z -> R) -> Prop),
    isvec X -> isvec Y -> wf X -> wf Y -> allocated L X -> allocated L Y ->
    (0 <= n)%Z -> (0 <= len)%Z -> (n + len <= vlen X)%Z -> (n + len <= vlen Y)%Z -> vflt m X (n + len) -> vflt m Y (n + len) ->
    (forall r, fdot len (fun k => velt m X (n + k) * velt m Y (n + k)) r -> Q r m) ->
    wp (vec_dot K (armas_subvector_unsafe X n len) (armas_subvector_unsafe Y n len) len) L m Q.
  Proof.
    intros L X Y n len m Q VX VY WX WY LX LY Hn Hl HX HY FX FY HQ.
    destruct (@subv R L X n len) as (A1 & A2 & A3 & A4 & A5); auto.
    destruct (@subv R L Y n len) as (B1 & B2 & B3 & B4 & B5); auto.
    apply vec_dot_rwp; auto; try lia.
    - intros k Hk. rewrite A5 by lia. apply FX. lia.
    - intros k Hk. rewrite B5 by lia. apply FY. lia.
    - intros r Hr. apply HQ. eapply psum_ext; [|exact Hr]. intros k Hk. cbv beta. rewrite A5, B5 by lia. reflexivity.
  Qed.

  Lemma vec_dot_rec_rwp : forall fuel L X Y n minsz m (Q : R -> (Z -> R) -> Prop),
    isvec X -> isvec Y -> wf X -> wf Y -> allocated L X -> allocated L Y ->
    (0 <= n <= vlen X)%Z -> (n <= vlen Y)%Z -> (1 <= minsz)%Z -> (n < Z.of_nat fuel)%Z -> vflt m X n -> vflt m Y n ->
    (forall r, fdot n (fun k => velt m X k * velt m Y k) r -> Q r m) ->
    wp (vec_dot_recursive K fuel X Y n minsz) L m Q.
  Proof.
    induction fuel as [|fuel IH]; intros L X Y n minsz m Q VX VY WX WY LX LY Hn Hn' Hm Hf FX FY HQ; [lia|].
    cbn [vec_dot_recursive]. cbv zeta.
    destruct (quot_facts n ltac:(lia)) as (-> & -> & F1 & F2 & F3 & F4 & F5).
    set (f := fun k => velt m X k * velt m Y k) in *.
    assert (FX' : forall k, (k <= n)%Z -> vflt m X k) by (intros k Hk i Hi; apply FX; lia).
    assert (FY' : forall k, (k <= n)%Z -> vflt m Y k) by (intros k Hk i Hi; apply FY; lia).
    apply wp_if; intros E1; [apply vec_dot_rwp; auto|].
    apply wp_if; intros E2.
    { wbind. apply vec_dot_rsub; auto; try lia; try (apply FX'; lia); try (apply FY'; lia). intros r0 H0.
      wbind. apply vec_dot_rsub; auto; try lia; try (apply FX'; lia); try (apply FY'; lia). intros r1 H1.
      apply wp_ret. apply HQ. apply psum_2; auto; lia. }
    apply wp_if; intros E3.
    { wbind. apply vec_dot_rsub; auto; try lia; try (apply FX'; lia); try (apply FY'; lia). intros r0 H0.
      wbind. apply vec_dot_rsub; auto; try lia; try (apply FX'; lia); try (apply FY'; lia). intros r1 H1.
      wbind. apply vec_dot_rsub; auto; try lia; try (apply FX'; lia); try (apply FY'; lia). intros r2 H2.
      wbind. apply vec_dot_rsub; auto; try lia; try (apply FX'; lia); try (apply FY'; lia). intros r3 H3.
      apply wp_ret. apply HQ. apply psum_4; auto; lia. }
    assert (4 <= n)%Z. { pose proof (Z.div_mod n 4 ltac:(lia)). pose proof (Z.mod_pos_bound n 4 ltac:(lia)). lia. }
    destruct (F5 ltac:(lia)) as (G1 & G2 & G3).
    assert (R : forall a len (Q' : R -> (Z -> R) -> Prop), (0 <= a)%Z -> (0 <= len < n)%Z -> (a + len <= n)%Z ->
       (forall r, fdot len (fun k => f (a + k)%Z) r -> Q' r m) ->
       wp (vec_dot_recursive K fuel (armas_subvector_unsafe X a len) (armas_subvector_unsafe Y a len) len minsz) L m Q').
    { intros a len Q' Ha Hlen Hal HQ'.
      destruct (@subv R L X a len) as (A1 & A2 & A3 & A4 & A5); auto; try lia.
      destruct (@subv R L Y a len) as (B1 & B2 & B3 & B4 & B5); auto; try lia.
      apply IH; auto; try lia.
      - intros k Hk. rewrite A5 by lia. apply FX. lia.
      - intros k Hk. rewrite B5 by lia. apply FY. lia.
      - intros r Hr. apply HQ'. eapply psum_ext; [|exact Hr]. intros k Hk. unfold f. rewrite A5, B5 by lia. reflexivity. }
    wbind. apply R; try lia. intros r0 H0. wbind. apply R; try lia. intros r1 H1.
    wbind. apply R; try lia. intros r2 H2. wbind. apply R; try lia. intros r3 H3.
    apply wp_ret. apply HQ. apply psum_4; auto; lia.
  Qed.

  (* value + alpha * dot *)
  Lemma adot_round : forall fuel L m blas1min optflags value alpha x y,
    isvec x -> isvec y -> wf x -> wf y -> allocated L x -> allocated L y ->
    vlen x = vlen y -> (0 <= blas1min)%Z -> (vlen x < Z.of_nat fuel)%Z -> vflt m x (vlen x) -> vflt m y (vlen x) ->
    exists d, fdot (vlen x) (fun k => velt m x k * velt m y k) d /\
      armas_adot K fuel blas1min optflags value alpha x y L m = Some ((0%Z, rn (value + rn (alpha * d))), m).
  Proof.
    intros fuel L m blas1min optflags value alpha x y Vx Vy Wx Wy Lx Ly Hl Hb Hf FX FY.
    pose proof (vlen_nonneg x Wx) as Hx.
    assert (W : wp (armas_adot K fuel blas1min optflags value alpha x y) L m (fun r m' =>
      exists d, fdot (vlen x) (fun k => velt m x k * velt m y k) d /\ r = (0%Z, rn (value + rn (alpha * d))) /\ m' = m)).
    { unfold armas_adot. apply isvector_isvec in Vx as E1. apply isvector_isvec in Vy as E2.
      rewrite E1, E2. cbn [negb]. change (armas_size x) with (vlen x). change (armas_size y) with (vlen y).
      rewrite Hl, Z.eqb_refl in *. cbn [negb]. wbind.
      assert (C : forall d, fdot (vlen y) (fun k => velt m y k * velt m x k) d -> fdot (vlen y) (fun k => velt m x k * velt m y k) d).
      { intros d. apply psum_ext. intros; apply Rmult_comm. }
      apply wp_if; intros E.
      - apply vec_dot_rwp; auto; try lia. intros d Hd. apply wp_ret. exists d. auto.
      - apply vec_dot_rec_rwp; auto; try lia. intros d Hd. apply wp_ret. exists d. auto. }
    destruct W as (r & m' & E & d & Hd & -> & ->). exists d. auto.
  Qed.

  (* ----------------------------------------------------------------- asum *)
  Definition fasum (n : Z) (f : Z -> R) (r : R) : Prop := psum 0 0 n f r.

  Lemma vec_asum_rwp : forall L X n m (Q : R -> (Z -> R) -> Prop),
    isvec X -> wf X -> allocated L X -> (0 <= n <= vlen X)%Z -> vflt m X n ->
    (forall r, fasum n (fun k => Rabs (velt m X k)) r -> Q r m) ->
    wp (vec_asum K X n) L m Q.
  Proof.
    intros L X n m Q VX WX LX Hn FX HQ. unfold vec_asum. wbind.
    set (f := fun k => Rabs (velt m X k)) in *.
    assert (LF : forall k, (0 <= k < n)%Z -> fs 0 (Rabs (m (vad X k))) (f k) (Rabs (f k)) 0).
    { intros k Hk. apply fs_leaf. apply float_abs. apply FX. lia. }
    apply wp_unroll4_acc with (I := fun i c m' => m' = m /\ pk4 0 0 i c (SUM i f) (SUM i (fun k => Rabs (f k)))); auto; try lia.
    - split; auto. rewrite !SUM_0. apply pk4_0.
    - intros i [[[c0 c1] c2] c3] m' Hi Hi3 (-> & IH). do 4 (vrd X). apply wp_ret.
      split; auto. rewrite !SUM_S4 by lia. apply pk4_four; auto; try lia; apply LF; lia.
    - intros i [[[c0 c1] c2] c3] m' Hi (-> & IH). vrd X. apply wp_ret. split; [reflexivity|]. rewrite !SUM_S by lia.
      destruct (pk4_one 0 0 _ _ _ _ _ _ _ _ _ IH (LF i Hi)) as (P1 & P2 & P3).
      destruct (n - i =? 3)%Z; [exact P1|]. destruct (n - i =? 2)%Z; [exact P2|exact P3].
    - intros [[[c0 c1] c2] c3] m' (-> & IH). apply wp_ret. apply HQ. apply pk4_final; auto.
  Qed.

  Lemma vec_asum_rsub : forall L X n len m (Q : R -> (Z -> R) -> Prop),
    isvec X -> wf X -> allocated L X -> (0 <= n)%Z -> (0 <= len)%Z -> (n + len <= vlen X)%Z -> vflt m X (n + len) ->
    (forall r, fasum len (fun k => Rabs (velt m X (n + k))) r -> Q r m) ->
    wp (vec_asum K (armas_subvector_unsafe X n len) len) L m Q.
  Proof.
    intros L X n len m Q VX WX LX Hn Hl HX FX HQ.
    destruct (@subv R L X n len) as (A1 & A2 & A3 & A4 & A5); auto.
    apply vec_asum_rwp; auto; try lia.
    - intros k Hk. rewrite A5 by lia. apply FX. lia.
    - intros r Hr. apply HQ. eapply psum_ext; [|exact Hr]. intros k Hk. cbv beta. rewrite A5 by lia. reflexivity.
  Qed.

  Lemma vec_asum_rec_rwp : forall fuel L X n minsz m (Q : R -> (Z -> R) -> Prop),
    isvec X -> wf X -> allocated L X -> (0 <= n <= vlen X)%Z -> (1 <= minsz)%Z -> (n < Z.of_nat fuel)%Z -> vflt m X n ->
    (forall r, fasum n (fun k => Rabs (velt m X k)) r -> Q r m) ->
    wp (vec_asum_recursive K fuel X n minsz) L m Q.
  Proof.
    induction fuel as [|fuel IH]; intros L X n minsz m Q VX WX LX Hn Hm Hf FX HQ; [lia|].
    cbn [vec_asum_recursive]. cbv zeta.
    destruct (quot_facts n ltac:(lia)) as (-> & -> & F1 & F2 & F3 & F4 & F5).
    set (f := fun k => Rabs (velt m X k)) in *.
    assert (FX' : forall k, (k <= n)%Z -> vflt m X k) by (intros k Hk i Hi; apply FX; lia).
    apply wp_if; intros E1; [apply vec_asum_rwp; auto|].
    apply wp_if; intros E2.
    { wbind. apply vec_asum_rsub; auto; try lia; try (apply FX'; lia). intros r0 H0.
      wbind. apply vec_asum_rsub; auto; try lia; try (apply FX'; lia). intros r1 H1.
      apply wp_ret. apply HQ. apply psum_2; auto; lia. }
    apply wp_if; intros E3.
    { wbind. apply vec_asum_rsub; auto; try lia; try (apply FX'; lia). intros r0 H0.
      wbind. apply vec_asum_rsub; auto; try lia; try (apply FX'; lia). intros r1 H1.
      wbind. apply vec_asum_rsub; auto; try lia; try (apply FX'; lia). intros r2 H2.
      wbind. apply vec_asum_rsub; auto; try lia; try (apply FX'; lia). intros r3 H3.
      apply wp_ret. apply HQ. apply psum_4; auto; lia. }
    assert (4 <= n)%Z. { pose proof (Z.div_mod n 4 ltac:(lia)). pose proof (Z.mod_pos_bound n 4 ltac:(lia)). lia. }
    destruct (F5 ltac:(lia)) as (G1 & G2 & G3).
    assert (R : forall a len (Q' : R -> (Z -> R) -> Prop), (0 <= a)%Z -> (0 <= len < n)%Z -> (a + len <= n)%Z ->
       (forall r, fasum len (fun k => f (a + k)%Z) r -> Q' r m) ->
       wp (vec_asum_recursive K fuel (armas_subvector_unsafe X a len) len minsz) L m Q').
    { intros a len Q' Ha Hlen Hal HQ'.
      destruct (@subv R L X a len) as (A1 & A2 & A3 & A4 & A5); auto; try lia.
      apply IH; auto; try lia.
      - intros k Hk. rewrite A5 by lia. apply FX. lia.
      - intros r Hr. apply HQ'. eapply psum_ext; [|exact Hr]. intros k Hk. unfold f. rewrite A5 by lia. reflexivity. }
    wbind. apply R; try lia. intros r0 H0. wbind. apply R; try lia. intros r1 H1.
    wbind. apply R; try lia. intros r2 H2. wbind. apply R; try lia. intros r3 H3.
    apply wp_ret. apply HQ. apply psum_4; auto; lia.
  Qed.

  (* ------------------------------------------------ the compensated sum *)
  Section Kahan.
    Hypothesis H10 : (9 < prec)%Z.
    Lemma u_10 : u <= / 1024.
    Proof. unfold uro. change (/ 1024) with (bpow radix2 (-10)). apply bpow_le. lia. Qed.

    (* (s, c) after at most n terms of sum S *)
    Definition ka (n : Z) (S s c : R) : Prop :=
      flt s /\ flt c /\ (0 <= n)%Z /\ 0 <= S /\ Rabs c <= 3 * u * S /\
      Rabs (s - c - S) <= (2 * u + 12 * IZR n * (u * u)) * S.

    Lemma ka_0 : ka 0 0 0 0.
    Proof.
      split; [apply float_0|]. split; [apply float_0|]. split; [lia|]. split; [lra|].
      rewrite !Rminus_0_r, Rabs_R0, !Rmult_0_r. lra.
    Qed.
    Lemma ka_mono : forall n n' S s c, (n <= n')%Z -> ka n S s c -> ka n' S s c.
    Proof.
      intros n n' S s c H (H1 & H2 & H3 & H4 & H5 & H6). do 2 (split; [assumption|]). split; [lia|]. do 2 (split; [assumption|]).
      apply Rle_trans with (1 := H6). apply Rmult_le_compat_r; [assumption|]. apply Rplus_le_compat_l.
      apply Rmult_le_compat_r; [pose proof (u_pos prec); nra|]. apply IZR_le in H. lra.
    Qed.
    Lemma rnd_sub : forall x y, flt x -> flt y -> Rabs (rn (x - y) - (x - y)) <= u * Rabs (x - y).
    Proof. intros x y Hx Hy. apply rnd_add; auto. apply float_opp; auto. Qed.

    Lemma ka_step : forall n S s c x, ka n S s c -> flt x -> 0 <= x -> IZR (n + 1) * u <= 1 ->
      let '(s', c') := kahan1 K s c x in ka (n + 1) (S + x) s' c'.
    Proof.
      intros n S s c x (Fs & Fc & Hn & PS & Bc & Be) Fx Px Hu. unfold kahan1. cbn [add sub Fnum]. cbv zeta.
      pose proof (u_pos prec) as Pu. pose proof u_10 as Su.
      set (y := rn (x - c)). set (t := rn (s + y)). set (d := rn (t - s)). set (c' := rn (d - y)).
      assert (Fy : flt y) by (apply float_rnd; auto). assert (Ft : flt t) by (apply float_rnd; auto).
      assert (Fd : flt d) by (apply float_rnd; auto). assert (Fc' : flt c') by (apply float_rnd; auto).
      pose proof (rnd_sub x c Fx Fc) as R1. fold y in R1. pose proof (rnd_add prec emin Hprec s y Fs Fy) as R2. fold t in R2.
      pose proof (rnd_sub t s Ft Fs) as R3. fold d in R3. pose proof (rnd_sub d y Fd Fy) as R4. fold c' in R4.
      set (eta := y - (x - c)) in *. set (tau := t - (s + y)) in *. set (gam := d - (t - s)) in *. set (del := c' - (d - y)) in *.
      assert (Pn : 0 <= IZR n) by (apply IZR_le; lia). rewrite plus_IZR in Hu.
      set (nu := IZR n * u). assert (Hnu : 0 <= nu <= 1) by (unfold nu; nra).
      assert (Be' : Rabs (s - c - S) <= (2 * u + 12 * nu * u) * S) by (unfold nu; apply Rle_trans with (1 := Be); right; ring).
      clear Be. set (S' := S + x).
      assert (PS' : 0 <= S') by (unfold S'; lra).
      assert (e1 : Rabs (s - c - S) <= / 64 * S).
      { apply Rle_trans with (1 := Be'). apply Rmult_le_compat_r; [auto|]. nra. }
      assert (uS : u * S <= / 1024 * S) by (apply Rmult_le_compat_r; auto).
      assert (ux : u * x <= / 1024 * x) by (apply Rmult_le_compat_r; auto).
      assert (PuS : 0 <= u * S) by nra. assert (Pux : 0 <= u * x) by nra.
      assert (uuS : u * (u * S) <= / 1024 * (u * S)) by (apply Rmult_le_compat_r; auto).
      assert (uux : u * (u * x) <= / 1024 * (u * x)) by (apply Rmult_le_compat_r; auto).
      (* each rounding *)
      assert (A1 : Rabs eta <= u * x + 3 * (u * (u * S))).
      { apply Rle_trans with (1 := R1). apply Rle_trans with (u * (x + 3 * u * S)); [|right; ring]. apply Rmult_le_compat_l; [lra|].
        unfold Rminus. apply Rle_trans with (1 := Rabs_triang _ _). rewrite Rabs_Ropp, (Rabs_pos_eq x) by auto. lra. }
      apply Rabs_le_inv in A1 as A1'. apply Rabs_le_inv in Bc as Bc'. apply Rabs_le_inv in e1 as e1'.
      assert (Y : y = x - c + eta) by (unfold eta; ring).
      assert (By : Rabs y <= x + u * x + 3 * (u * S) + 3 * (u * (u * S))).
      { apply Rabs_le. split; lra. }
      assert (A2 : Rabs tau <= 6 / 5 * (u * S')).
      { apply Rle_trans with (1 := R2). replace (6 / 5 * (u * S')) with (u * (6 / 5 * S')) by ring. apply Rmult_le_compat_l; [lra|].
        unfold S'. apply Rabs_le. split; lra. }
      apply Rabs_le_inv in By as By'. apply Rabs_le_inv in A2 as A2'.
      assert (ES : u * S' = u * S + u * x) by (unfold S'; ring).
      assert (EUS : u * (u * S') = u * (u * S) + u * (u * x)) by (unfold S'; ring).
      assert (PuuS : 0 <= u * (u * S)) by nra. assert (Puux : 0 <= u * (u * x)) by nra.
      assert (A3 : Rabs gam <= u * x + 6 * (u * (u * S'))).
      { apply Rle_trans with (1 := R3). replace (t - s) with (y + tau) by (unfold tau; ring).
        assert (Rabs (y + tau) <= (x + u * x + 3 * (u * S) + 3 * (u * (u * S))) + 6 / 5 * (u * S')) by (apply Rle_trans with (1 := Rabs_triang _ _); lra).
        apply Rle_trans with (u * ((x + u * x + 3 * (u * S) + 3 * (u * (u * S))) + 6 / 5 * (u * S'))); [apply Rmult_le_compat_l; lra|].
        assert (u * (u * (u * S)) <= / 1024 * (u * (u * S))) by (apply Rmult_le_compat_r; auto). lra. }
      apply Rabs_le_inv in A3 as A3'.
      assert (B3 : Rabs (tau + gam) <= 9 / 4 * (u * S')).
      { apply Rabs_le. split; lra. }
      assert (A4 : Rabs del <= 3 * (u * (u * S'))).
      { apply Rle_trans with (1 := R4). replace (d - y) with (tau + gam) by (unfold tau, gam; ring).
        apply Rle_trans with (u * (9 / 4 * (u * S'))); [apply Rmult_le_compat_l; lra|]. lra. }
      apply Rabs_le_inv in B3 as B3'. apply Rabs_le_inv in A4 as A4'.
      split; [auto|]. split; [auto|]. split; [lia|]. split; [exact PS'|]. split.
      - replace c' with (tau + gam + del) by (unfold tau, gam, del; ring). fold S'.
        apply Rabs_le. split; lra.
      - fold S'. replace (t - c' - S') with ((s - c - S) + (eta - gam - del)) by (unfold eta, gam, del, S'; ring).
        apply Rle_trans with (1 := Rabs_triang _ _).
        assert (Rabs (eta - gam - del) <= 2 * (u * x) + 12 * (u * (u * S'))) by (apply Rabs_le; split; lra).
        assert (E1 : (2 * u + 12 * nu * u) * S <= (2 * u) * S + 12 * nu * u * S').
        { assert (0 <= 12 * nu * u * x) by (repeat apply Rmult_le_pos; lra). unfold S'. lra. }
        rewrite plus_IZR. replace (12 * (IZR n + 1) * (u * u)) with (12 * nu * u + 12 * (u * u)) by (unfold nu; ring).
        replace ((2 * u + (12 * nu * u + 12 * (u * u))) * S') with (2 * (u * S') + 12 * nu * u * S' + 12 * (u * (u * S'))) by ring.
        lra.
    Qed.

    Lemma ka_final : forall n S0 s0 c0 S1 s1 c1, (1 <= n)%Z -> IZR n * u <= 1 -> ka n S0 s0 c0 -> ka n S1 s1 c1 ->
      flt (rn (s0 + s1)) /\ Rabs (rn (s0 + s1) - (S0 + S1)) <= (6 * u + 18 * IZR n * (u * u)) * (S0 + S1).
    Proof.
      intros n S0 s0 c0 S1 s1 c1 Hn Hu (F0 & _ & _ & P0 & C0 & E0) (F1 & _ & _ & P1 & C1 & E1).
      split; [apply float_rnd; auto|]. pose proof (rnd_add prec emin Hprec s0 s1 F0 F1) as R.
      pose proof (u_pos prec) as Pu. pose proof u_10 as Su. assert (Pn : 1 <= IZR n) by (apply IZR_le; lia).
      set (k := 12 * IZR n * (u * u)) in *. set (S := S0 + S1).
      assert (Ek : k <= 12 * u) by (unfold k; nra). assert (Pk : 12 * (u * u) <= k) by (unfold k; nra).
      assert (B : Rabs (s0 + s1 - S) <= (5 * u + k) * S).
      { replace (s0 + s1 - S) with ((s0 - c0 - S0) + (s1 - c1 - S1) + (c0 + c1)) by (unfold S; ring).
        apply Rle_trans with (1 := Rabs_triang _ _). pose proof (Rabs_triang (s0 - c0 - S0) (s1 - c1 - S1)). pose proof (Rabs_triang c0 c1).
        unfold S. lra. }
      assert (PS : 0 <= S) by (unfold S; lra).
      assert (B2 : Rabs (s0 + s1) <= (1 + 5 * u + k) * S).
      { replace (s0 + s1) with ((s0 + s1 - S) + S) by ring. apply Rle_trans with (1 := Rabs_triang _ _). rewrite (Rabs_pos_eq S) by auto. lra. }
      replace (rn (s0 + s1) - S) with ((rn (s0 + s1) - (s0 + s1)) + (s0 + s1 - S)) by ring.
      apply Rle_trans with (1 := Rabs_triang _ _).
      assert (u * Rabs (s0 + s1) <= u * ((1 + 5 * u + k) * S)) by (apply Rmult_le_compat_l; lra).
      replace (18 * IZR n * (u * u)) with (3 / 2 * k) by (unfold k; field).
      apply Rle_trans with (u * ((1 + 5 * u + k) * S) + (5 * u + k) * S); [lra|].
      replace (u * ((1 + 5 * u + k) * S) + (5 * u + k) * S) with ((u * (1 + 5 * u + k) + (5 * u + k)) * S) by ring.
      apply Rmult_le_compat_r; [auto|]. nra.
    Qed.

    Lemma vec_asum_kahan_rwp : forall L X n m (Q : R -> (Z -> R) -> Prop),
      isvec X -> wf X -> allocated L X -> (0 <= n <= vlen X)%Z -> IZR n * u <= 1 -> vflt m X n ->
      (forall r, let S := SUM n (fun k => Rabs (velt m X k)) in
        flt r -> Rabs (r - S) <= (6 * u + 18 * IZR n * (u * u)) * S -> Q r m) ->
      wp (vec_asum_kahan K X n) L m Q.
    Proof.
      intros L X n m Q VX WX LX Hn Hu FX HQ. unfold vec_asum_kahan. wbind.
      set (f := fun k => Rabs (velt m X k)) in *. pose proof (u_pos prec) as Pu.
      assert (HU : forall i, (i <= n)%Z -> IZR i * u <= 1).
      { intros i Hi. apply Rle_trans with (2 := Hu). apply Rmult_le_compat_r; [lra|]. apply IZR_le. auto. }
      assert (FF : forall k, (0 <= k < n)%Z -> flt (Rabs (m (vad X k)))) by (intros k Hk; apply float_abs; apply FX; lia).
      apply wp_for_acc with (I := fun i c m' => m' = m /\
        let '(s0, c0, s1, c1) := c in exists S0 S1, ka i S0 s0 c0 /\ ka i S1 s1 c1 /\ S0 + S1 = SUM i f); try lia.
      - split; auto. exists 0, 0. rewrite SUM_0. pose proof ka_0. split; [auto|]. split; [auto|lra].
      - intros i [[[s0 c0] s1] c1] m' k Hk Ek Hi (-> & S0 & S1 & K0 & K1 & ES). do 2 (vrd X).
        pose proof (ka_step i S0 s0 c0 (Rabs (m (vad X (i + 0)))) K0 (FF (i + 0)%Z ltac:(lia)) (Rabs_pos _) (HU (i + 1)%Z ltac:(lia))) as A0.
        pose proof (ka_step i S1 s1 c1 (Rabs (m (vad X (i + 1)))) K1 (FF (i + 1)%Z ltac:(lia)) (Rabs_pos _) (HU (i + 1)%Z ltac:(lia))) as A1.
        cbn [abs Fnum]. destruct (kahan1 K s0 c0 _) as [s0' c0']. destruct (kahan1 K s1 c1 _) as [s1' c1'].
        apply wp_ret. split; [reflexivity|]. exists (S0 + Rabs (m (vad X (i + 0)))), (S1 + Rabs (m (vad X (i + 1)))).
        split; [apply ka_mono with (i + 1)%Z; [lia|exact A0]|]. split; [apply ka_mono with (i + 1)%Z; [lia|exact A1]|].
        rewrite SUM_S2 by lia. rewrite <- ES. unfold f. rewrite !velt_vad. ring.
      - intros [[[s0 c0] s1] c1] m' (-> & S0 & S1 & K0 & K1 & ES). cbv zeta.
        destruct (Z.eq_dec n 0) as [->|Nn].
        { change (loop_end 0 (0 - 1) 2 =? 0)%Z with true. cbv iota. apply wp_ret.
          change (loop_end 0 (0 - 1) 2) with 0%Z in *. rewrite SUM_0 in ES.
          destruct K0 as (G0 & _ & _ & P0 & C0 & E0), K1 as (G1 & _ & _ & P1 & C1 & E1).
          assert (S0 = 0) by lra. assert (S1 = 0) by lra. subst S0 S1.
          rewrite !Rmult_0_r in *. apply Rabs_le_inv in C0, C1, E0, E1.
          assert (s0 = 0) by lra. assert (s1 = 0) by lra. subst s0 s1. cbn [add Fnum]. rewrite Rplus_0_r, rnd_0.
          apply HQ; [apply float_0|]. rewrite SUM_0, Rminus_0_r, Rabs_R0. lra. }
        destruct (loop_end_2 n ltac:(lia)) as [E|E].
        + rewrite E, Z.eqb_refl. apply wp_ret. rewrite E in ES, K0, K1. 
          destruct (ka_final n S0 s0 c0 S1 s1 c1 ltac:(lia) Hu K0 K1) as [G1 G2]. rewrite ES in G2. apply HQ; auto.
        + apply wp_if; intros E'; [lia|]. rewrite E in *. vrd X.
          pose proof (ka_step (n - 1) S0 s0 c0 (Rabs (m (vad X (n - 1 + 0)))) K0 (FF (n - 1 + 0)%Z ltac:(lia)) (Rabs_pos _) (HU (n - 1 + 1)%Z ltac:(lia))) as A0.
          cbn [abs Fnum]. destruct (kahan1 K s0 c0 _) as [s0' c0']. apply wp_ret.
          replace (n - 1 + 1)%Z with n in A0 by lia.
          destruct (ka_final n _ s0' c0' S1 s1 c1 ltac:(lia) Hu A0 (ka_mono (n - 1) n _ _ _ ltac:(lia) K1)) as [G1 G2].
          assert (EN : S0 + Rabs (m (vad X (n - 1 + 0))) + S1 = SUM n f).
          { replace n with (n - 1 + 1)%Z at 2 by lia. rewrite SUM_S by lia. rewrite <- ES. unfold f. rewrite velt_vad, Z.add_0_r. ring. }
          rewrite EN in G2. apply HQ; auto.
    Qed.
  End Kahan.
End Round.
