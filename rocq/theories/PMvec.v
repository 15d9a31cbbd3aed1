(* PMvec.v: the matrix-vector kernels of MBlas2.v. *)
From Coq Require Import ZArith Lia Ring Bool ZifyBool.
From Verif Require Import Mem MView SpecView PView PSub Hoare MFlags MCopy PUpd
  MNum SpecNum MBlas1 PSum PBlas1 MElem MBlas2.
Local Open Scope Z_scope.
Local Open Scope prog_scope.

(* loops *)

Lemma loop_end_2 : forall N, 0 <= N -> (loop_end 0 (N - 1) 2 = N \/ loop_end 0 (N - 1) 2 = N - 1) /\
  0 <= loop_end 0 (N - 1) 2.
Proof.
  intros N H. destruct (Z_le_dec 0 (N - 1)).
  - pose proof (trips_bounds 0 (N - 1) 2 ltac:(lia) ltac:(lia)) as [H' _]. unfold loop_end in *. lia.
  - rewrite loop_end_0 by lia. lia.
Qed.

Lemma wp_unroll2_acc : forall T A (b2 f : Z -> A -> M T A) L (I : Z -> A -> (Z -> T) -> Prop)
    N a m (Q : A -> (Z -> T) -> Prop),
  0 <= N -> I 0 a m ->
  (forall i a m, 0 <= i -> i + 1 < N -> I i a m -> wp (b2 i a) L m (I (i + 2))) ->
  (forall i a m, 0 <= i < N -> I i a m -> wp (f i a) L m (I (i + 1))) ->
  (forall a m, I N a m -> Q a m) ->
  wp (unroll2_acc N b2 f a) L m Q.
Proof.
  intros T A b2 f L I N a m Q HN H0 H2 H1 HQ. unfold unroll2_acc. wbind.
  destruct (loop_end_2 N HN) as (Hl & Hl0).
  apply wp_for_acc with (I := I); auto; [lia| |].
  - intros i a' m' k Hk Hi Hlo HI. apply H2; auto; lia.
  - intros a' m' HI. apply wp_if; intros E.
    + apply wp_ret, HQ. replace N with (loop_end 0 (N - 1) 2) by lia. auto.
    + eapply wp_conseq; [apply H1; [lia|exact HI]|]. intros a'' m'' HI'. apply HQ.
      replace N with (loop_end 0 (N - 1) 2 + 1) by lia. auto.
Qed.

Lemma wp_unroll2 : forall T (b2 f : Z -> M T unit) L (I : Z -> (Z -> T) -> Prop)
    N m (Q : unit -> (Z -> T) -> Prop),
  0 <= N -> I 0 m ->
  (forall i m, 0 <= i -> i + 1 < N -> I i m -> wp (b2 i) L m (fun _ => I (i + 2))) ->
  (forall i m, 0 <= i < N -> I i m -> wp (f i) L m (fun _ => I (i + 1))) ->
  (forall m, I N m -> Q tt m) ->
  wp (unroll2 N b2 f) L m Q.
Proof.
  intros T b2 f L I N m Q HN H0 H2 H1 HQ. unfold unroll2.
  apply wp_unroll2_acc with (I := fun i _ => I i); auto. intros [] m'; auto.
Qed.

(* the body unrolled four times is four times the remainder body *)
Lemma wp_unroll4_u : forall T (f : Z -> M T unit) L (I : Z -> (Z -> T) -> Prop)
    N m (Q : unit -> (Z -> T) -> Prop),
  0 <= N -> I 0 m ->
  (forall i m, 0 <= i < N -> I i m -> wp (f i) L m (fun _ => I (i + 1))) ->
  (forall m, I N m -> Q tt m) ->
  wp (unroll4 N (fun i => f (i + 0) ;; f (i + 1) ;; f (i + 2) ;; f (i + 3)) f) L m Q.
Proof.
  intros T f L I N m Q HN H0 H1 HQ. apply wp_unroll4 with (I := I); auto.
  intros i m' Hi Hi3 HI. rewrite Z.add_0_r.
  wbind. eapply wp_conseq; [apply H1; [lia|exact HI]|]. cbv beta. intros _ m1 H.
  wbind. eapply wp_conseq; [apply H1; [lia|exact H]|]. cbv beta. intros _ m2 H'.
  replace (i + 1 + 1) with (i + 2) in * by lia.
  wbind. eapply wp_conseq; [apply H1; [lia|exact H']|]. cbv beta. intros _ m3 H''.
  replace (i + 2 + 1) with (i + 3) in * by lia.
  eapply wp_conseq; [apply H1; [lia|exact H'']|]. cbv beta. intros _ m4 H'''.
  replace (i + 3 + 1) with (i + 4) in * by lia. auto.
Qed.

Ltac unroll4u J := match goal with |- wp (unroll4 _ _ ?f) _ _ _ => apply (wp_unroll4_u _ f) with (I := J) end.

Lemma wp_unroll421 : forall T (f4 f2 f1 : Z -> M T unit) L (I : Z -> (Z -> T) -> Prop)
    N m (Q : unit -> (Z -> T) -> Prop),
  0 <= N -> I 0 m ->
  (forall i m, 0 <= i -> i + 4 <= N -> I i m -> wp (f4 i) L m (fun _ => I (i + 4))) ->
  (forall i m, 0 <= i -> i + 2 <= N -> I i m -> wp (f2 i) L m (fun _ => I (i + 2))) ->
  (forall i m, 0 <= i < N -> I i m -> wp (f1 i) L m (fun _ => I (i + 1))) ->
  (forall m, I N m -> Q tt m) ->
  wp (unroll421 N f4 f2 f1) L m Q.
Proof.
  intros T f4 f2 f1 L I N m Q HN H0 H4 H2 H1 HQ. unfold unroll421. wbind.
  destruct (tail_cases N HN) as (Ht1 & Ht2).
  apply wp_for_up with (I := I); auto; [lia| |].
  - intros i m' k Hk Hi Hlo HI. apply H4; auto; lia.
  - intros m' HI. set (j := loop_end 0 (N - 3) 4) in *. cbv zeta. apply wp_if; intros E.
    + apply wp_ret, HQ. replace N with j by lia. auto.
    + wbind. apply wp_when; intros E2; rewrite E2.
      * eapply wp_conseq; [apply H2; [lia|lia|exact HI]|]. cbv beta. intros _ m1 H.
        apply wp_when; intros E1.
        -- eapply wp_conseq; [apply H1; [lia|exact H]|]. cbv beta. intros [] m2 H'.
           apply HQ. replace N with (j + 2 + 1) by lia. auto.
        -- apply HQ. replace N with (j + 2) by lia. auto.
      * apply wp_when; intros E1.
        -- eapply wp_conseq; [apply H1; [lia|exact HI]|]. cbv beta. intros [] m2 H'.
           apply HQ. replace N with (j + 1) by lia. auto.
        -- apply HQ. replace N with j by lia. auto.
Qed.

(* address of element k of a vector given by pointer and increment *)
Definition ad (y incy k : Z) : Z := y + k * incy.

Lemma ad_inj : forall y incy (S : Z -> Prop), 0 < incy -> inj_on S (ad y incy).
Proof. intros y incy S H p q _ _ E. unfold ad in E. nia. Qed.

(* p can be read and is not an element of the vector *)
Definition off (L : Z -> bool) (y incy n p : Z) : Prop :=
  L p = true /\ forall q, 0 <= q < n -> p <> ad y incy q.

(* an update of a vector is seen by its elements only *)
Lemma off_same : forall T L y incy n p (m0 m : Z -> T) F (S : Z -> Prop),
  off L y incy n p -> upd m0 (ad y incy) F S m -> (forall q, S q -> 0 <= q < n) -> m p = m0 p.
Proof. intros T L y incy n p m0 m F S (_ & H) (_ & H2) HS. apply H2. intros q Hq. apply H. auto. Qed.

(* two updates of the same vector, the second after the first *)
Lemma upd_seq : forall I T (D : I -> Z) (F G : I -> T) (S : I -> Prop) m0 m1 m2,
  upd m0 D F S m1 -> upd m1 D G S m2 -> upd m0 D G S m2.
Proof.
  intros I T D F G S m0 m1 m2 (A1 & A2) (B1 & B2). split; auto.
  intros a Ha. rewrite B2 by auto. apply A2. auto.
Qed.

Lemma upd_seq_gen : forall I T (D : I -> Z) (F G H : I -> T) (S1 S2 S U : I -> Prop) m0 m1 m2,
  inj_on U D -> (forall q, S1 q -> U q) -> (forall q, S2 q -> U q) ->
  (forall q, {S2 q} + {~ S2 q}) ->
  upd m0 D F S1 m1 -> upd m1 D G S2 m2 ->
  (forall q, S q <-> S1 q \/ S2 q) -> (forall q, S2 q -> H q = G q) ->
  (forall q, S1 q -> ~ S2 q -> H q = F q) -> upd m0 D H S m2.
Proof.
  intros I T D F G H S1 S2 S U m0 m1 m2 Hi U1 U2 Hd (A1 & A2) (B1 & B2) HS HG HF. split.
  - intros p Hp. destruct (Hd p) as [H2|H2].
    + rewrite HG by auto. auto.
    + assert (S1 p) as H1 by (apply HS in Hp as [?|?]; tauto).
      rewrite HF by auto. rewrite B2; auto. intros q Hq E. apply Hi in E; auto. subst; auto.
  - intros a Ha. rewrite B2, A2; auto; intros p Hp; apply Ha, HS; auto.
Qed.

Lemma upd_D : forall I T (D E : I -> Z) (F : I -> T) (S : I -> Prop) m0 m,
  (forall q, S q -> D q = E q) -> upd m0 D F S m -> upd m0 E F S m.
Proof.
  intros I T D E F S m0 m H (A1 & A2). split.
  - intros p Hp. rewrite <- H by auto. auto.
  - intros a Ha. apply A2. intros p Hp. rewrite H by auto. auto.
Qed.

Lemma upd_same : forall T I (D : I -> Z) (S : I -> Prop) (m : Z -> T), upd m D (fun k => m (D k)) S m.
Proof. intros; split; auto. Qed.

(* index change *)
Lemma upd_reindex : forall I J T (D : I -> Z) (E : J -> Z) (F : I -> T) (G : J -> T) (S : I -> Prop) (R : J -> Prop) m0 m,
  (forall q, S q -> exists r, R r /\ D q = E r) ->
  (forall r, R r -> exists q, S q /\ D q = E r /\ F q = G r) ->
  upd m0 D F S m -> upd m0 E G R m.
Proof.
  intros I J T D E F G S R m0 m H1 H2 (A1 & A2). split.
  - intros r Hr. destruct (H2 r Hr) as (q & Hq & <- & <-). auto.
  - intros a Ha. apply A2. intros q Hq. destruct (H1 q Hq) as (r & Hr & ->). auto.
Qed.

Section Kernels.
  Context {T : Type} (K : num T).
  Implicit Types (m : Z -> T) (L : Z -> bool).
  Local Notation "x +' y" := (add K x y) (at level 50, left associativity).
  Local Notation "x *' y" := (mul K x y) (at level 40, left associativity).
  Hypothesis HR : is_ring K.
  Let HR' : ring_theory (zero K) (one K) (add K) (mul K) (sub K) (opp K) eq := HR.
  Add Ring Kring : HR'.

  (* y[k*incy] += v where elements below k are already done *)
  Lemma incr_wp : forall L m0 y incy n F m k p v (Q : unit -> (Z -> T) -> Prop),
    upd m0 (ad y incy) F (fun q => 0 <= q < k) m -> 0 < incy -> 0 <= k < n ->
    (forall q, 0 <= q < n -> L (ad y incy q) = true) ->
    p = ad y incy k -> F k = m0 (ad y incy k) +' v ->
    (forall m', upd m0 (ad y incy) F (fun q => 0 <= q < k + 1) m' -> Q tt m') ->
    wp (incr K p v) L m Q.
  Proof.
    intros L m0 y incy n F m k p v Q Hu Hi Hk HL -> HF HQ. unfold incr, modify.
    wbind. apply wp_rd; auto. cbv beta.
    eapply wp_wr_upd with (U := fun q => 0 <= q < n) (p := k) (S' := fun q => 0 <= q < k + 1);
      [exact Hu|apply ad_inj; auto|cbv beta; intros; lia|lia|reflexivity| |apply HL; lia|cbv beta; intros; lia|exact HQ].
    rewrite HF. f_equal. destruct Hu as (_ & H2). apply H2. intros q Hq E.
    unfold ad in E; nia.
  Qed.

  (* accumulate a vector; the value at index k is its old value plus G k *)
  Section Axpy.
    Variables (L : Z -> bool) (y incy nR : Z) (m : Z -> T).
    Hypothesis Hi : 0 < incy.
    Hypothesis Hy : forall q, 0 <= q < nR -> L (ad y incy q) = true.
    Let res (G : Z -> T) (m' : Z -> T) : Prop :=
      upd m (ad y incy) (fun k => m (ad y incy k) +' G k) (fun k => 0 <= k < nR) m'.

    Ltac ro H := wbind; apply wp_rd; [apply H; lia|cbv beta zeta].

    Lemma vmult1axpy_wp : forall g a0 x incx alpha, 0 <= nR ->
      (forall k, 0 <= k < nR -> off L y incy nR (a0 + k)) -> L x = true ->
      wp (vmult1axpy K g y incy a0 x incx alpha nR) L m (fun _ m' =>
        res (fun k => g (m (a0 + k)) *' (alpha *' g (m x))) m').
    Proof.
      intros g a0 x incx alpha HN Ha Hx. unfold vmult1axpy. wbind. apply wp_rd; [auto|]. cbv beta zeta.
      set (F := fun k => m (ad y incy k) +' g (m (a0 + k)) *' (alpha *' g (m x))).
      unroll4u (fun k m' => upd m (ad y incy) F (fun q => 0 <= q < k) m'); auto.
      - apply upd_nil. intros; lia.
      - intros k m' Hk Hu. ro Ha.
        eapply incr_wp; [exact Hu|auto|exact Hk|auto|reflexivity| |auto].
        unfold F. rewrite (off_same _ _ _ _ _ _ _ _ _ _ (Ha k Hk) Hu) by (cbv beta; intros; lia). reflexivity.
    Qed.

    Ltac rw H Hu := rewrite (off_same _ _ _ _ _ _ _ _ _ _ H Hu) by (cbv beta; intros; lia).
    Ltac inc Hu := eapply incr_wp with (n := nR); [exact Hu|auto|split; lia|auto|reflexivity|
       |clear Hu; intros ? Hu; cbv beta].

    Lemma vmult2axpy_wp : forall g a0 a1 x incx alpha, 0 <= nR ->
      (forall k, 0 <= k < nR -> off L y incy nR (a0 + k)) ->
      (forall k, 0 <= k < nR -> off L y incy nR (a1 + k)) -> L x = true -> L (x + incx) = true ->
      wp (vmult2axpy K g y incy a0 a1 x incx alpha nR) L m (fun _ m' =>
        res (fun k => g (m (a0 + k)) *' (alpha *' g (m x)) +' g (m (a1 + k)) *' (alpha *' g (m (x + incx)))) m').
    Proof.
      intros g a0 a1 x incx alpha HN Ha Hb Hx Hx1. unfold vmult2axpy.
      wbind. apply wp_rd; [auto|]. cbv beta zeta. wbind. apply wp_rd; [auto|]. cbv beta zeta.
      set (F := fun k => m (ad y incy k) +' (g (m (a0 + k)) *' (alpha *' g (m x)) +' g (m (a1 + k)) *' (alpha *' g (m (x + incx))))).
      apply wp_unroll4 with (I := fun k m' => upd m (ad y incy) F (fun q => 0 <= q < k) m'); auto.
      - apply upd_nil. intros; lia.
      - intros k m' Hk Hk3 Hu. do 4 (ro Ha). do 4 (ro Hb).
        assert (Ea : forall q, 0 <= q < nR -> m' (a0 + q) = m (a0 + q)).
        { intros q Hq. rw (Ha q Hq) Hu. reflexivity. }
        assert (Eb : forall q, 0 <= q < nR -> m' (a1 + q) = m (a1 + q)).
        { intros q Hq. rw (Hb q Hq) Hu. reflexivity. }
        replace k with (k + 0) in Hu by lia.
        wbind. inc Hu. { unfold F. rewrite Ea, Eb by lia. reflexivity. }
        replace (k + 0 + 1) with (k + 1) in Hu by lia.
        wbind. inc Hu. { unfold F. rewrite Ea, Eb by lia. reflexivity. }
        replace (k + 1 + 1) with (k + 2) in Hu by lia.
        wbind. inc Hu. { unfold F. rewrite Ea, Eb by lia. reflexivity. }
        replace (k + 2 + 1) with (k + 3) in Hu by lia.
        inc Hu. { unfold F. rewrite Ea, Eb by lia. reflexivity. }
        replace (k + 3 + 1) with (k + 4) in Hu by lia. exact Hu.
      - intros k m' Hk Hu. ro Ha. ro Hb. inc Hu; [|exact Hu].
        unfold F. rw (Ha k Hk) Hu. rw (Hb k Hk) Hu. reflexivity.
    Qed.

    Lemma vmult4axpy_wp : forall g a0 a1 a2 a3 x incx alpha, 0 <= nR ->
      (forall k, 0 <= k < nR -> off L y incy nR (a0 + k)) ->
      (forall k, 0 <= k < nR -> off L y incy nR (a1 + k)) ->
      (forall k, 0 <= k < nR -> off L y incy nR (a2 + k)) ->
      (forall k, 0 <= k < nR -> off L y incy nR (a3 + k)) ->
      L x = true -> L (x + incx) = true -> L (x + 2 * incx) = true -> L (x + 3 * incx) = true ->
      wp (vmult4axpy K g y incy a0 a1 a2 a3 x incx alpha nR) L m (fun _ m' =>
        res (fun k => g (m (a0 + k)) *' (alpha *' g (m x)) +' g (m (a1 + k)) *' (alpha *' g (m (x + incx)))
             +' g (m (a2 + k)) *' (alpha *' g (m (x + 2 * incx))) +' g (m (a3 + k)) *' (alpha *' g (m (x + 3 * incx)))) m').
    Proof.
      intros g a0 a1 a2 a3 x incx alpha HN Ha Hb Hc Hd Hx Hx1 Hx2 Hx3. unfold vmult4axpy.
      do 4 (wbind; apply wp_rd; [auto|]; cbv beta zeta).
      set (F := fun k => m (ad y incy k) +' (g (m (a0 + k)) *' (alpha *' g (m x)) +' g (m (a1 + k)) *' (alpha *' g (m (x + incx)))
             +' g (m (a2 + k)) *' (alpha *' g (m (x + 2 * incx))) +' g (m (a3 + k)) *' (alpha *' g (m (x + 3 * incx))))).
      apply wp_unroll2 with (I := fun k m' => upd m (ad y incy) F (fun q => 0 <= q < k) m'); auto.
      - apply upd_nil. intros; lia.
      - intros k m' Hk Hk3 Hu. do 2 (ro Ha). do 2 (ro Hb). do 2 (ro Hc). do 2 (ro Hd).
        assert (Ea : forall q, 0 <= q < nR -> m' (a0 + q) = m (a0 + q)) by (intros q Hq; rw (Ha q Hq) Hu; reflexivity).
        assert (Eb : forall q, 0 <= q < nR -> m' (a1 + q) = m (a1 + q)) by (intros q Hq; rw (Hb q Hq) Hu; reflexivity).
        assert (Ec : forall q, 0 <= q < nR -> m' (a2 + q) = m (a2 + q)) by (intros q Hq; rw (Hc q Hq) Hu; reflexivity).
        assert (Ed : forall q, 0 <= q < nR -> m' (a3 + q) = m (a3 + q)) by (intros q Hq; rw (Hd q Hq) Hu; reflexivity).
        replace k with (k + 0) in Hu by lia.
        wbind. inc Hu. { unfold F. rewrite Ea, Eb, Ec, Ed by lia. reflexivity. }
        replace (k + 0 + 1) with (k + 1) in Hu by lia.
        inc Hu. { unfold F. rewrite Ea, Eb, Ec, Ed by lia. reflexivity. }
        replace (k + 1 + 1) with (k + 2) in Hu by lia. exact Hu.
      - intros k m' Hk Hu. ro Ha. ro Hb. ro Hc. ro Hd. inc Hu; [|exact Hu].
        unfold F. rw (Ha k Hk) Hu. rw (Hb k Hk) Hu. rw (Hc k Hk) Hu. rw (Hd k Hk) Hu. reflexivity.
    Qed.
  End Axpy.

  Section Dot.
    Variables (L : Z -> bool) (y incy x incx nR : Z) (m : Z -> T).
    Hypothesis Hi : 0 < incy.
    Hypothesis HN : 0 <= nR.
    Hypothesis Hx : forall q, 0 <= q < nR -> L (x + q * incx) = true.
    Variable h : T -> T -> T.
    Let dotp (a : Z) : T := vsum K nR (fun k => h (m (a + k)) (m (x + k * incx))).

    Ltac ro H := wbind; apply wp_rd; [apply H; lia|cbv beta zeta].
    Ltac inc N Hu := eapply incr_wp with (n := N); [exact Hu|auto|split; lia|auto|unfold ad; lia|
       |clear Hu; intros ? Hu; cbv beta].

    Lemma vmult1dot_wp : forall a0 alpha,
      (forall k, 0 <= k < nR -> L (a0 + k) = true) -> L y = true ->
      wp (vmult1dot K h y incy a0 x incx alpha nR) L m (fun _ m' =>
        upd m (ad y incy) (fun k => m (ad y incy k) +' dotp a0 *' alpha) (fun k => 0 <= k < 1) m').
    Proof.
      intros a0 alpha Ha Hy. unfold vmult1dot. wbind.
      set (f := fun k => h (m (a0 + k)) (m (x + k * incx))).
      apply wp_unroll4_acc with (I := fun i c m' => m' = m /\
        let '(c0, c1, c2, c3) := c in c0 +' c1 +' (c2 +' c3) = vsum K i f); auto; try lia.
      - split; auto. rewrite vsum_0 by lia. ring.
      - intros i [[[c0 c1] c2] c3] m' Hi0 Hi3 (-> & IH).
        ro Ha. ro Hx. ro Ha. ro Hx. ro Ha. ro Hx. ro Ha. ro Hx. apply wp_ret.
        split; auto.
        replace (i + 4) with (i + 0 + 1 + 1 + 1 + 1) by lia. rewrite !vsum_S by lia.
        replace (i + 0 + 1 + 1 + 1) with (i + 3) by lia. replace (i + 0 + 1 + 1) with (i + 2) by lia.
        replace (i + 0 + 1) with (i + 1) by lia.
        replace (vsum K (i + 0) f) with (c0 +' c1 +' (c2 +' c3)) by (rewrite IH; f_equal; lia).
        unfold f. ring.
      - intros i [[[c0 c1] c2] c3] m' Hi0 (-> & IH). ro Ha. ro Hx. apply wp_ret.
        destruct (nR - i =? 3), (nR - i =? 2); (split; [reflexivity|]); rewrite vsum_S, <- IH by lia;
          unfold f; ring.
      - intros [[[c0 c1] c2] c3] m' (-> & IH). rewrite IH.
        assert (Hu : upd m (ad y incy) (fun k => m (ad y incy k) +' vsum K nR f *' alpha) (fun k => 0 <= k < 0) m)
          by (apply upd_nil; intros; lia).
        eapply incr_wp with (n := 1); [exact Hu|auto|lia| |unfold ad; lia|reflexivity|].
        + intros q Hq. replace (ad y incy q) with y by (unfold ad; nia). auto.
        + intros m'. auto.
    Qed.

    Lemma vmult2dot_wp : forall a0 a1 alpha,
      (forall k, 0 <= k < nR -> L (a0 + k) = true) -> (forall k, 0 <= k < nR -> L (a1 + k) = true) ->
      (forall q, 0 <= q < 2 -> L (ad y incy q) = true) ->
      wp (vmult2dot K h y incy a0 a1 x incx alpha nR) L m (fun _ m' =>
        upd m (ad y incy) (fun k => m (ad y incy k) +' dotp (if k =? 0 then a0 else a1) *' alpha) (fun k => 0 <= k < 2) m').
    Proof.
      intros a0 a1 alpha Ha Hb Hy. unfold vmult2dot. wbind.
      set (f := fun k => h (m (a0 + k)) (m (x + k * incx))).
      set (f' := fun k => h (m (a1 + k)) (m (x + k * incx))).
      apply wp_unroll4_acc with (I := fun i c m' => m' = m /\
        let '(c0, c1, c2, c3, (c4, c5, c6, c7)) := c in c0 +' c1 +' (c2 +' c3) = vsum K i f /\
           c4 +' c5 +' (c6 +' c7) = vsum K i f'); auto; try lia.
      - split; auto. rewrite !vsum_0 by lia. split; ring.
      - intros i [[[[c0 c1] c2] c3] [[[c4 c5] c6] c7]] m' Hi0 Hi3 (-> & IH & IH').
        ro Ha. ro Hx. ro Ha. ro Hx. ro Ha. ro Hx. ro Ha. ro Hx. do 4 (ro Hb). apply wp_ret.
        split; auto.
        replace (i + 4) with (i + 0 + 1 + 1 + 1 + 1) by lia. rewrite !vsum_S by lia.
        replace (i + 0 + 1 + 1 + 1) with (i + 3) by lia. replace (i + 0 + 1 + 1) with (i + 2) by lia.
        replace (i + 0 + 1) with (i + 1) by lia.
        replace (vsum K (i + 0) f) with (c0 +' c1 +' (c2 +' c3)) by (rewrite IH; f_equal; lia).
        replace (vsum K (i + 0) f') with (c4 +' c5 +' (c6 +' c7)) by (rewrite IH'; f_equal; lia).
        unfold f, f'. split; ring.
      - intros i [[[[c0 c1] c2] c3] [[[c4 c5] c6] c7]] m' Hi0 (-> & IH & IH'). ro Ha. ro Hx. ro Hb. apply wp_ret.
        destruct (nR - i =? 3), (nR - i =? 2); (split; [reflexivity|]); rewrite !vsum_S, <- IH, <- IH' by lia;
          unfold f, f'; split; ring.
      - intros [[[[c0 c1] c2] c3] [[[c4 c5] c6] c7]] m' (-> & IH & IH'). rewrite IH, IH'.
        assert (Hu : upd m (ad y incy) (fun k => m (ad y incy k) +' dotp (if k =? 0 then a0 else a1) *' alpha) (fun k => 0 <= k < 0) m)
          by (apply upd_nil; intros; lia).
        wbind. inc 2 Hu. { reflexivity. }
        inc 2 Hu. { reflexivity. } exact Hu.
    Qed.

    Lemma vmult4dot_wp : forall a0 a1 a2 a3 alpha,
      (forall k, 0 <= k < nR -> L (a0 + k) = true) -> (forall k, 0 <= k < nR -> L (a1 + k) = true) ->
      (forall k, 0 <= k < nR -> L (a2 + k) = true) -> (forall k, 0 <= k < nR -> L (a3 + k) = true) ->
      (forall q, 0 <= q < 4 -> L (ad y incy q) = true) ->
      wp (vmult4dot K h y incy a0 a1 a2 a3 x incx alpha nR) L m (fun _ m' =>
        upd m (ad y incy) (fun k => m (ad y incy k) +'
           dotp (if k =? 0 then a0 else if k =? 1 then a1 else if k =? 2 then a2 else a3) *' alpha) (fun k => 0 <= k < 4) m').
    Proof.
      intros a0 a1 a2 a3 alpha Ha Hb Hc Hd Hy. unfold vmult4dot. wbind.
      set (f0 := fun k => h (m (a0 + k)) (m (x + k * incx))).
      set (f1 := fun k => h (m (a1 + k)) (m (x + k * incx))).
      set (f2 := fun k => h (m (a2 + k)) (m (x + k * incx))).
      set (f3 := fun k => h (m (a3 + k)) (m (x + k * incx))).
      apply wp_unroll2_acc with (I := fun i c m' => m' = m /\
        let '(c0, c1, c2, c3, (c4, c5, c6, c7)) := c in c0 +' c1 = vsum K i f0 /\ c2 +' c3 = vsum K i f1 /\
           c4 +' c5 = vsum K i f2 /\ c6 +' c7 = vsum K i f3); auto; try lia.
      - split; auto. rewrite !vsum_0 by lia. repeat split; ring.
      - intros i [[[[c0 c1] c2] c3] [[[c4 c5] c6] c7]] m' Hi0 Hi3 (-> & I0 & I1 & I2 & I3).
        ro Ha. ro Hx. ro Ha. ro Hx. do 2 (ro Hb). do 2 (ro Hc). do 2 (ro Hd). apply wp_ret.
        split; auto.
        replace (i + 2) with (i + 1 + 1) by lia. rewrite !vsum_S by lia.
        rewrite <- I0, <- I1, <- I2, <- I3. unfold f0, f1, f2, f3. rewrite Z.add_0_r.
        repeat split; ring.
      - intros i [[[[c0 c1] c2] c3] [[[c4 c5] c6] c7]] m' Hi0 (-> & I0 & I1 & I2 & I3).
        ro Ha. ro Hx. ro Hb. ro Hc. ro Hd. apply wp_ret. split; auto.
        rewrite !vsum_S, <- I0, <- I1, <- I2, <- I3 by lia. unfold f0, f1, f2, f3. repeat split; ring.
      - intros [[[[c0 c1] c2] c3] [[[c4 c5] c6] c7]] m' (-> & I0 & I1 & I2 & I3). rewrite I0, I1, I2, I3.
        assert (Hu : upd m (ad y incy) (fun k => m (ad y incy k) +'
           dotp (if k =? 0 then a0 else if k =? 1 then a1 else if k =? 2 then a2 else a3) *' alpha) (fun k => 0 <= k < 0) m)
          by (apply upd_nil; intros; lia).
        wbind. inc 4 Hu. { reflexivity. }
        wbind. inc 4 Hu. { reflexivity. }
        wbind. inc 4 Hu. { reflexivity. }
        inc 4 Hu. { reflexivity. } exact Hu.
    Qed.
  End Dot.
End Kernels.
