(* PGemm.v: the matrix-matrix kernels of MGemm.v. *)
From Coq Require Import ZArith Lia Ring Bool ZifyBool.
From Verif Require Import Mem MView SpecView PView PSub Hoare MFlags MCopy PUpd PCopy
  MNum SpecNum MBlas1 PSum PBlas1 MElem PElem MBlas2 PMvec MBase MGemm SpecPivot MPivot PPivot MSort PSort PBlas2 PFrame.
Local Open Scope Z_scope.
Local Open Scope prog_scope.
Ltac lia := zlia.

(* loops whose step is a parameter *)
Lemma wp_for_step : forall T (f : Z -> M T unit) L (I : Z -> (Z -> T) -> Prop) lo hi s m (Q : unit -> (Z -> T) -> Prop),
  0 < s -> lo <= hi ->
  I lo m ->
  (forall i m, lo <= i < hi -> I i m -> wp (f i) L m (fun _ => I (Z.min (i + s) hi))) ->
  (forall m, I hi m -> Q tt m) ->
  wp (for_step lo hi s f) L m Q.
Proof.
  intros T f L I lo hi s m Q Hs Hlh H0 Hb HQ. unfold for_step.
  apply wp_if; intros E; [apply wp_ret, HQ; replace hi with lo by lia; exact H0|].
  replace (s <=? 0) with false by lia.
  apply wp_for_up with (I := fun i m => I (Z.min i hi) m); auto.
  - rewrite Z.min_l by lia. auto.
  - intros i m' k Hk Ek Hi HI. rewrite Z.min_l in HI by lia. apply Hb; auto.
  - intros m' HI. apply HQ. pose proof (proj1 (trips_bounds lo hi s Hs Hlh)) as X.
    rewrite Z.min_r in HI by lia. exact HI.
Qed.

Section Inner.
  Context {T : Type} (K : num T).
  Implicit Types (m : Z -> T).
  Local Notation "x +' y" := (add K x y) (at level 50, left associativity).
  Local Notation "x *' y" := (mul K x y) (at level 40, left associativity).
  Hypothesis HR : is_ring K.
  Let HR' : ring_theory (zero K) (one K) (add K) (mul K) (sub K) (opp K) eq := HR.
  Add Ring Kring : HR'.

  Variables (L : Z -> bool) (C A B : view) (m0 : Z -> T) (alpha : T).
  Hypotheses (WC : wf C) (LC : allocated L C) (LA : allocated L A) (LB : allocated L B)
             (DA : disjoint C A) (DB : disjoint C B)
             (HP : 0 <= rows A <= rows B).

  Let pr i j k := m0 (mad A (k, i)) *' m0 (mad B (k, j)).
  Let dot i j n := vsum K n (pr i j).
  Let F (p : Z * Z) := m0 (mad C p) +' dot (fst p) (snd p) (rows A) *' alpha.
  Let St := U C m0 F.
  Let pa i := elems A + i * step A.
  Let pb j := elems B + j * step B.
  Let inA i := 0 <= i < cols A.
  Let inB j := 0 <= j < cols B.

  Lemma dot_0 : forall i j, dot i j 0 = zero K.
  Proof. intros. unfold dot. apply vsum_0. lia. Qed.
  Lemma dot_S : forall i j n, 0 <= n -> dot i j (n + 1) = dot i j n +' pr i j n.
  Proof. intros. unfold dot. apply vsum_S. lia. Qed.
  Lemma dot_S4 : forall i j n, 0 <= n -> dot i j (n + 4) =
    dot i j n +' pr i j n +' pr i j (n + 1) +' pr i j (n + 2) +' pr i j (n + 3).
  Proof.
    intros i j n H. replace (n + 4) with (n + 1 + 1 + 1 + 1) by lia. rewrite !dot_S by lia.
    replace (n + 1 + 1 + 1) with (n + 3) by lia. replace (n + 1 + 1) with (n + 2) by lia. reflexivity.
  Qed.
  Lemma dot_S2 : forall i j n, 0 <= n -> dot i j (n + 2) = dot i j n +' pr i j n +' pr i j (n + 1).
  Proof. intros i j n H. replace (n + 2) with (n + 1 + 1) by lia. rewrite !dot_S by lia. reflexivity. Qed.

  Lemma prod1_wp : forall S m i j k p q (Q : T -> (Z -> T) -> Prop), St S m -> inA i -> inB j -> 0 <= k < rows A ->
    p = pa i -> q = pb j -> Q (pr i j k) m -> wp (prod1 K p q k) L m Q.
  Proof.
    intros S m i j k p q Q Hu Hi Hj Hk -> -> HQ. unfold prod1, inA, inB in *.
    assert (PA : pos A k i) by (unfold pos; lia). assert (PB : pos B k j) by (unfold pos; lia).
    wbind. eapply wp_rd_m with (A := A) (i := k) (j := i); auto.
    wbind. eapply wp_rd_m with (A := B) (i := k) (j := j); auto.
    apply wp_ret. erewrite (U_disj C m0 F S m A), (U_disj C m0 F S m B); eauto; apply mad_cell; auto.
  Qed.

  Lemma incr_U : forall S m i j a v (Q : unit -> (Z -> T) -> Prop), St S m -> pos C i j -> ~ S (i, j) ->
    a = mad C (i, j) -> v = dot i j (rows A) *' alpha ->
    (forall m', St (fun q => S q \/ (fst q = i /\ snd q = j)) m' -> Q tt m') ->
    wp (incr K a v) L m Q.
  Proof.
    intros S m i j a v Q Hu Hp Hn -> -> HQ. unfold incr, modify. wbind.
    eapply U_rd with (A := C) (i := i) (j := j); eauto.
    eapply U_wr with (A := C) (i := i) (j := j); eauto.
    cbv beta. rewrite (U_old C m0 F WC S m i j Hu Hp Hn). reflexivity.
  Qed.

  Ltac pr1' H x y := wbind; eapply (prod1_wp _ _ x y); [exact H|unfold inA in *; lia|unfold inB in *; lia|lia|reflexivity|reflexivity|].

  Lemma mult1c1_wp : forall S m i j c (Q : unit -> (Z -> T) -> Prop), St S m -> inA i -> inB j ->
    pos C i j -> ~ S (i, j) -> c = mad C (i, j) ->
    (forall m', St (fun q => S q \/ (fst q = i /\ snd q = j)) m' -> Q tt m') ->
    wp (mult1c1 K c (pa i) (pb j) alpha (rows A)) L m Q.
  Proof.
    intros S m i j c Q Hu Hi Hj Hp Hn Ec HQ. unfold mult1c1. wbind.
    apply wp_unroll4_acc with (I := fun k y m' => m' = m /\
      let '(y0, y1, y2, y3) := y in y0 +' y1 +' y2 +' y3 = dot i j k); try lia.
    - split; auto. rewrite dot_0. ring.
    - intros k [[[y0 y1] y2] y3] m' Hk Hk3 (-> & IH).
      pr1' Hu i j. pr1' Hu i j. pr1' Hu i j. pr1' Hu i j. apply wp_ret. split; auto.
      rewrite dot_S4, <- IH by lia. ring.
    - intros k [[[y0 y1] y2] y3] m' Hk (-> & IH). pr1' Hu i j. apply wp_ret.
      destruct (rows A - k =? 3), (rows A - k =? 2); (split; [reflexivity|]); rewrite dot_S, <- IH by lia; ring.
    - intros [[[y0 y1] y2] y3] m' (-> & IH). eapply incr_U; eauto. rewrite <- IH. ring.
  Qed.

  Definition block (i ni j nj : Z) (q : Z * Z) : Prop := i <= fst q < i + ni /\ j <= snd q < j + nj.

  (* the rows and columns of the block lie in the matrices and have not been updated *)
  Definition room (S : Z * Z -> Prop) (i ni j nj : Z) : Prop :=
    forall i' j', i <= i' < i + ni -> j <= j' < j + nj -> pos C i' j' /\ ~ S (i', j') /\ inA i' /\ inB j'.

  Ltac inc x y := eapply (incr_U _ _ x y);
    [eassumption|match goal with H : room _ _ _ _ _ |- _ => apply H; lia end
    |cbn [fst snd]; let X := fresh in intros X;
     repeat match type of X with _ \/ _ => destruct X as [X|X] end;
     [match goal with H : room _ _ _ _ _ |- _ => revert X; apply H; lia end|lia..]
    |unfold mad; cbn [fst snd]; lia| |].
  Ltac done HQ x y := apply HQ; match goal with H : St _ _ |- _ => eapply U_ext; [|exact H] end;
    intros i' j'; unfold block; cbn [fst snd]; split; intros HH;
    [por_hyp; first [left; assumption|right; lia]
    |destruct HH as [HH|HH]; [por|
       destruct (Z.eq_dec i' x), (Z.eq_dec j' y), (Z.eq_dec j' (y + 1)), (Z.eq_dec j' (y + 2)); try (exfalso; lia); por]].

  Lemma mult1c2_wp : forall S m i j c0 c1 (Q : unit -> (Z -> T) -> Prop), St S m -> room S i 1 j 2 ->
    c0 = mad C (i, j) -> c1 = mad C (i, j + 1) ->
    (forall m', St (fun q => S q \/ block i 1 j 2 q) m' -> Q tt m') ->
    wp (mult1c2 K c0 c1 (pa i) (pb j) (pb (j + 1)) alpha (rows A)) L m Q.
  Proof.
    intros S m i j c0 c1 Q Hu Hr E0 E1 HQ. unfold mult1c2. wbind.
    destruct (Hr i j) as (_ & _ & RA & RB); try lia. destruct (Hr i (j + 1)) as (_ & _ & _ & RB1); try lia.
    apply wp_unroll4_acc with (I := fun k y m' => m' = m /\
      let '(y0, y1, y2, y3, y4, y5, y6, y7) := y in
      y0 +' y2 +' y4 +' y6 = dot i j k /\ y1 +' y3 +' y5 +' y7 = dot i (j + 1) k); try lia.
    - split; auto. rewrite !dot_0. split; ring.
    - intros k [[[[[[[y0 y1] y2] y3] y4] y5] y6] y7] m' Hk Hk3 (-> & IH & IH').
      do 4 (pr1' Hu i j; pr1' Hu i (j + 1)). apply wp_ret. split; auto.
      rewrite !dot_S4, <- IH, <- IH', Z.add_0_r by lia. split; ring.
    - intros k [[[[[[[y0 y1] y2] y3] y4] y5] y6] y7] m' Hk (-> & IH & IH').
      pr1' Hu i j. pr1' Hu i (j + 1). apply wp_ret.
      destruct (rows A - k =? 3), (rows A - k =? 2); (split; [reflexivity|]); rewrite !dot_S, <- IH, <- IH' by lia; split; ring.
    - intros [[[[[[[y0 y1] y2] y3] y4] y5] y6] y7] m' (-> & IH & IH'). subst c0 c1.
      wbind. inc i j. { rewrite <- IH. ring. } clear m Hu; intros m Hu.
      inc i (j + 1). { rewrite <- IH'. ring. } clear m Hu; intros m Hu.
      done HQ i j.
  Qed.

  Lemma mult2c2_wp : forall S m i j c0 c1 (Q : unit -> (Z -> T) -> Prop), St S m -> room S i 2 j 2 ->
    c0 = mad C (i, j) -> c1 = mad C (i, j + 1) ->
    (forall m', St (fun q => S q \/ block i 2 j 2 q) m' -> Q tt m') ->
    wp (mult2c2 K c0 c1 (pa i) (pa (i + 1)) (pb j) (pb (j + 1)) alpha (rows A)) L m Q.
  Proof.
    intros S m i j c0 c1 Q Hu Hr E0 E1 HQ. unfold mult2c2. wbind.
    destruct (Hr i j) as (_ & _ & RA & RB); try lia. destruct (Hr (i + 1) (j + 1)) as (_ & _ & RA1 & RB1); try lia.
    apply wp_unroll2_acc with (I := fun k y m' => m' = m /\
      let '(y0, y1, y2, y3, y4, y5, y6, y7) := y in
      y0 +' y2 = dot i j k /\ y1 +' y3 = dot i (j + 1) k /\ y4 +' y6 = dot (i + 1) j k /\ y5 +' y7 = dot (i + 1) (j + 1) k); try lia.
    - split; auto. rewrite !dot_0. repeat split; ring.
    - intros k [[[[[[[y0 y1] y2] y3] y4] y5] y6] y7] m' Hk Hk3 (-> & I1 & I2 & I3 & I4).
      do 2 (pr1' Hu i j; pr1' Hu i (j + 1)). do 2 (pr1' Hu (i + 1) j; pr1' Hu (i + 1) (j + 1)). apply wp_ret. split; auto.
      rewrite !dot_S2, <- I1, <- I2, <- I3, <- I4, Z.add_0_r by lia. repeat split; ring.
    - intros k [[[[[[[y0 y1] y2] y3] y4] y5] y6] y7] m' Hk (-> & I1 & I2 & I3 & I4).
      pr1' Hu i j; pr1' Hu i (j + 1). pr1' Hu (i + 1) j; pr1' Hu (i + 1) (j + 1). apply wp_ret. split; auto.
      rewrite !dot_S, <- I1, <- I2, <- I3, <- I4, Z.add_0_r by lia. repeat split; ring.
    - intros [[[[[[[y0 y1] y2] y3] y4] y5] y6] y7] m' (-> & I1 & I2 & I3 & I4). subst c0 c1.
      rewrite I1, I2, I3, I4.
      wbind. inc i j. { reflexivity. } clear m Hu; intros m Hu.
      wbind. inc i (j + 1). { reflexivity. } clear m Hu; intros m Hu.
      wbind. inc (i + 1) j. { reflexivity. } clear m Hu; intros m Hu.
      inc (i + 1) (j + 1). { reflexivity. } clear m Hu; intros m Hu.
      done HQ i j.
  Qed.

  Lemma mult1c4_wp : forall S m i j c0 c1 c2 c3 (Q : unit -> (Z -> T) -> Prop), St S m -> room S i 1 j 4 ->
    c0 = mad C (i, j) -> c1 = mad C (i, j + 1) -> c2 = mad C (i, j + 2) -> c3 = mad C (i, j + 3) ->
    (forall m', St (fun q => S q \/ block i 1 j 4 q) m' -> Q tt m') ->
    wp (mult1c4 K c0 c1 c2 c3 (pa i) (pb j) (pb (j + 1)) (pb (j + 2)) (pb (j + 3)) alpha (rows A)) L m Q.
  Proof.
    intros S m i j c0 c1 c2 c3 Q Hu Hr E0 E1 E2 E3 HQ. unfold mult1c4. wbind.
    destruct (Hr i j) as (_ & _ & RA & RB); try lia. destruct (Hr i (j + 3)) as (_ & _ & _ & RB1); try lia.
    apply wp_for1_acc with (I := fun k y m' => m' = m /\ y = (dot i j k, dot i (j + 1) k, dot i (j + 2) k, dot i (j + 3) k)); try lia.
    - split; [reflexivity|rewrite !dot_0; reflexivity].
    - intros k y m' Hk (-> & ->).
      pr1' Hu i j. pr1' Hu i (j + 1). pr1' Hu i (j + 2). pr1' Hu i (j + 3). apply wp_ret. split; auto.
      rewrite !dot_S by lia. reflexivity.
    - intros y m' (-> & ->). subst c0 c1 c2 c3. rewrite Z.max_r by lia.
      wbind. inc i j. { reflexivity. } clear m Hu; intros m Hu.
      wbind. inc i (j + 1). { reflexivity. } clear m Hu; intros m Hu.
      wbind. inc i (j + 2). { reflexivity. } clear m Hu; intros m Hu.
      inc i (j + 3). { reflexivity. } clear m Hu; intros m Hu.
      done HQ i j.
  Qed.

  Lemma mult2c4_wp : forall S m i j c0 c1 c2 c3 (Q : unit -> (Z -> T) -> Prop), St S m -> room S i 2 j 4 ->
    c0 = mad C (i, j) -> c1 = mad C (i, j + 1) -> c2 = mad C (i, j + 2) -> c3 = mad C (i, j + 3) ->
    (forall m', St (fun q => S q \/ block i 2 j 4 q) m' -> Q tt m') ->
    wp (mult2c4 K c0 c1 c2 c3 (pa i) (pa (i + 1)) (pb j) (pb (j + 1)) (pb (j + 2)) (pb (j + 3)) alpha (rows A)) L m Q.
  Proof.
    intros S m i j c0 c1 c2 c3 Q Hu Hr E0 E1 E2 E3 HQ. unfold mult2c4. wbind.
    destruct (Hr i j) as (_ & _ & RA & RB); try lia. destruct (Hr (i + 1) (j + 3)) as (_ & _ & RA1 & RB1); try lia.
    apply wp_for1_acc with (I := fun k y m' => m' = m /\ y = (dot i j k, dot i (j + 1) k, dot i (j + 2) k, dot i (j + 3) k,
      dot (i + 1) j k, dot (i + 1) (j + 1) k, dot (i + 1) (j + 2) k, dot (i + 1) (j + 3) k)); try lia.
    - split; [reflexivity|rewrite !dot_0; reflexivity].
    - intros k y m' Hk (-> & ->).
      pr1' Hu i j. pr1' Hu i (j + 1). pr1' Hu i (j + 2). pr1' Hu i (j + 3).
      pr1' Hu (i + 1) j. pr1' Hu (i + 1) (j + 1). pr1' Hu (i + 1) (j + 2). pr1' Hu (i + 1) (j + 3). apply wp_ret. split; auto.
      rewrite !dot_S by lia. reflexivity.
    - intros y m' (-> & ->). subst c0 c1 c2 c3. rewrite Z.max_r by lia.
      wbind. inc i j. { reflexivity. } clear m Hu; intros m Hu.
      wbind. inc i (j + 1). { reflexivity. } clear m Hu; intros m Hu.
      wbind. inc i (j + 2). { reflexivity. } clear m Hu; intros m Hu.
      wbind. inc i (j + 3). { reflexivity. } clear m Hu; intros m Hu.
      wbind. inc (i + 1) j. { reflexivity. } clear m Hu; intros m Hu.
      wbind. inc (i + 1) (j + 1). { reflexivity. } clear m Hu; intros m Hu.
      wbind. inc (i + 1) (j + 2). { reflexivity. } clear m Hu; intros m Hu.
      inc (i + 1) (j + 3). { reflexivity. } clear m Hu; intros m Hu.
      done HQ i j.
  Qed.

  Lemma room_block : forall S i ni j nj i' ni' j' nj' k nk, room S i ni j nj ->
    i <= i' -> i' + ni' <= i + ni -> j <= j' -> j' + nj' <= j + nj ->
    (i + k <= i' \/ j + nk <= j') -> room (fun q => S q \/ block i k j nk q) i' ni' j' nj'.
  Proof.
    intros S i ni j nj i' ni' j' nj' k nk H H1 H2 H3 H4 H5 x y Hx Hy.
    destruct (H x y) as (X1 & X2 & X3); try lia. split; [auto|]. split; [|exact X3].
    intros [X|X]; [auto|]. unfold block in X. cbn [fst snd] in X. lia.
  Qed.

  Ltac ublk Hu := eapply U_ext; [|exact Hu]; intros i' j'; unfold block; cbn [fst snd]; split; intros HH;
    [por_hyp; first [left; assumption|right; lia]|destruct HH as [HH|HH]; [por|]].

  (* C->rows rows, columns j.. of C *)
  Lemma CMULT4_wp : forall S m j (Q : unit -> (Z -> T) -> Prop), St S m -> room S 0 (rows C) j 4 ->
    (forall m', St (fun q => S q \/ block 0 (rows C) j 4 q) m' -> Q tt m') ->
    wp (CMULT4 K C A B alpha j (rows C) (rows A)) L m Q.
  Proof.
    intros S m j Q Hu Hr HQ. unfold CMULT4. cbv zeta. wbind.
    assert (HC : 0 <= rows C) by (destruct WC; lia).
    destruct (loop_end_2 (rows C) HC) as (Hl & Hl0).
    apply wp_for_up with (I := fun i m => St (fun q => S q \/ block 0 i j 4 q) m); [lia| | |].
    - ublk Hu. exfalso; lia.
    - clear m Hu. intros i m k Hk Ei Hi Hu. rewrite !Z.add_0_r.
      eapply (mult2c4_wp _ _ i j); [exact Hu| | | | | |]; try (unfold at_, mad; cbn [fst snd]; lia).
      + apply room_block with (ni := rows C) (nj := 4); auto; lia.
      + clear m Hu. intros m Hu. ublk Hu.
        destruct (Z_lt_dec i' i); [left; right; lia|right; lia].
    - clear m Hu. intros m Hu. rewrite !Z.add_0_r. set (e := loop_end 0 (rows C - 1) 2) in *.
      apply wp_when; intros E.
      + eapply (mult1c4_wp _ _ e j); [exact Hu| | | | | |]; try (unfold at_, mad; cbn [fst snd]; lia).
        * apply room_block with (ni := rows C) (nj := 4); auto; lia.
        * clear m Hu. intros m Hu. apply HQ. ublk Hu.
          destruct (Z_lt_dec i' e); [left; right; lia|right; lia].
      + apply HQ. replace (rows C) with e by lia. exact Hu.
  Qed.

  Lemma CMULT2_wp : forall S m j (Q : unit -> (Z -> T) -> Prop), St S m -> room S 0 (rows C) j 2 ->
    (forall m', St (fun q => S q \/ block 0 (rows C) j 2 q) m' -> Q tt m') ->
    wp (CMULT2 K C A B alpha j (rows C) (rows A)) L m Q.
  Proof.
    intros S m j Q Hu Hr HQ. unfold CMULT2. cbv zeta. wbind.
    assert (HC : 0 <= rows C) by (destruct WC; lia).
    destruct (loop_end_2 (rows C) HC) as (Hl & Hl0).
    apply wp_for_up with (I := fun i m => St (fun q => S q \/ block 0 i j 2 q) m); [lia| | |].
    - ublk Hu. exfalso; lia.
    - clear m Hu. intros i m k Hk Ei Hi Hu. rewrite !Z.add_0_r.
      eapply (mult2c2_wp _ _ i j); [exact Hu| | | |]; try (unfold at_, mad; cbn [fst snd]; lia).
      + apply room_block with (ni := rows C) (nj := 2); auto; lia.
      + clear m Hu. intros m Hu. ublk Hu.
        destruct (Z_lt_dec i' i); [left; right; lia|right; lia].
    - clear m Hu. intros m Hu. rewrite !Z.add_0_r. set (e := loop_end 0 (rows C - 1) 2) in *.
      apply wp_when; intros E.
      + eapply (mult1c2_wp _ _ e j); [exact Hu| | | |]; try (unfold at_, mad; cbn [fst snd]; lia).
        * apply room_block with (ni := rows C) (nj := 2); auto; lia.
        * clear m Hu. intros m Hu. apply HQ. ublk Hu.
          destruct (Z_lt_dec i' e); [left; right; lia|right; lia].
      + apply HQ. replace (rows C) with e by lia. exact Hu.
  Qed.

  Lemma CMULT1_wp : forall S m j (Q : unit -> (Z -> T) -> Prop), St S m -> room S 0 (rows C) j 1 ->
    (forall m', St (fun q => S q \/ block 0 (rows C) j 1 q) m' -> Q tt m') ->
    wp (CMULT1 K C A B alpha j (rows C) (rows A)) L m Q.
  Proof.
    intros S m j Q Hu Hr HQ. unfold CMULT1.
    assert (HC : 0 <= rows C) by (destruct WC; lia).
    apply wp_for1 with (I := fun i m => St (fun q => S q \/ block 0 i j 1 q) m).
    - ublk Hu. exfalso; lia.
    - clear m Hu. intros i m Hi Hu. rewrite !Z.add_0_r.
      assert (Hr' : room (fun q => S q \/ block 0 i j 1 q) i 1 j 1)
        by (apply room_block with (ni := rows C) (nj := 1); auto; lia).
      destruct (Hr' i j) as (X1 & X2 & X3 & X4); try lia.
      eapply (mult1c1_wp _ _ i j); [exact Hu|exact X3|exact X4|exact X1|exact X2|unfold at_, mad; cbn [fst snd]; lia|].
      clear m Hu. intros m Hu. ublk Hu.
      destruct (Z_lt_dec i' i); [left; right; lia|right; lia].
    - clear m Hu. intros m Hu. rewrite Z.max_r in Hu by lia. apply HQ, Hu.
  Qed.

  (* the whole of C, as the loops of armas_mult_kernel_inner do one strip of rows *)
  Definition strip (alpha : T) (C A B : view) : M T unit :=
      for_up 0 (cols C - 3) 4 (fun j => CMULT4 K C A B alpha j (rows C) (rows A)) ;;
      let j := loop_end 0 (cols C - 3) 4 in
      if j =? cols C then ret tt
      else
        when (j <? cols C - 1) (CMULT2 K C A B alpha j (rows C) (rows A)) ;;
        let j := if j <? cols C - 1 then j + 2 else j in
        when (j <? cols C) (CMULT1 K C A B alpha j (rows C) (rows A)).

  Hypothesis (HA : rows C <= cols A) (HB : cols C <= cols B).

  Lemma room_cols : forall j nj, 0 <= j -> j + nj <= cols C -> room (block 0 (rows C) 0 j) 0 (rows C) j nj.
  Proof.
    intros j nj H1 H2 x y Hx Hy. unfold pos, inA, inB, block. cbn [fst snd]. lia.
  Qed.

  Lemma strip_wp : forall (Q : unit -> (Z -> T) -> Prop),
    (forall m', (forall i j, pos C i j -> elt m' C i j = elt m0 C i j +'
        vsum K (rows A) (fun k => elt m0 A k i *' elt m0 B k j) *' alpha) ->
      only_changes C m0 m' -> Q tt m') -> wp (strip alpha C A B) L m0 Q.
  Proof.
    intros Q HQ. assert (HC : 0 <= cols C) by (destruct WC; lia).
    assert (HC0 : 0 <= rows C) by (destruct WC; lia).
    assert (Hend : forall m', St (block 0 (rows C) 0 (cols C)) m' -> Q tt m').
    { intros m' Hu. destruct (U_end C m0 F WC (block 0 (rows C) 0 (cols C)) (fun _ _ => true) m' Hu) as (X1 & X2).
      - intros i j (Hi & Hj). unfold block. cbn [fst snd]. lia.
      - apply HQ; [exact X1|exact X2]. }
    unfold strip. wbind. destruct (tail_cases (cols C) HC) as (Ht1 & Ht2).
    apply wp_for_up with (I := fun j m => St (block 0 (rows C) 0 j) m); [lia| | |].
    - eapply U_ext; [|apply U_nil]. intros i j. unfold block. cbn [fst snd]. split; [intros []|intros; lia].
    - intros j m k Hk Ej Hj Hu. eapply CMULT4_wp; [exact Hu|apply room_cols; lia|].
      clear m Hu. intros m Hu. eapply U_ext; [|exact Hu]. intros i' j'. unfold block. cbn [fst snd].
      split; intros HH; [por_hyp; lia|]. destruct (Z_lt_dec j' j); [left; lia|right; lia].
    - intros m Hu. set (e := loop_end 0 (cols C - 3) 4) in *. cbv zeta. apply wp_if; intros E.
      + apply wp_ret, Hend. replace (cols C) with e by lia. exact Hu.
      + wbind. apply wp_when; intros E2; rewrite E2.
        * eapply CMULT2_wp; [exact Hu|apply room_cols; lia|].
          clear m Hu. intros m Hu.
          assert (Hu' : St (block 0 (rows C) 0 (e + 2)) m).
          { eapply U_ext; [|exact Hu]. intros i' j'. unfold block. cbn [fst snd].
            split; intros HH; [por_hyp; lia|]. destruct (Z_lt_dec j' e); [left; lia|right; lia]. }
          clear Hu. apply wp_when; intros E3.
          -- eapply CMULT1_wp; [exact Hu'|apply room_cols; lia|].
             clear m Hu'. intros m Hu. apply Hend. eapply U_ext; [|exact Hu]. intros i' j'. unfold block. cbn [fst snd].
             split; intros HH; [por_hyp; lia|]. destruct (Z_lt_dec j' (e + 2)); [left; lia|right; lia].
          -- apply Hend. replace (cols C) with (e + 2) by lia. exact Hu'.
        * apply wp_when; intros E3; [|exfalso; lia].
          eapply CMULT1_wp; [exact Hu|apply room_cols; lia|].
          clear m Hu. intros m Hu. apply Hend. eapply U_ext; [|exact Hu]. intros i' j'. unfold block. cbn [fst snd].
          split; intros HH; [por_hyp; lia|]. destruct (Z_lt_dec j' e); [left; lia|right; lia].
  Qed.
End Inner.
