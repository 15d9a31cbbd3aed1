(* Properties_Compat1.v: the Fortran BLAS names for vector operations do what the reference BLAS does (C88). *)
From Coq Require Import ZArith Lia Bool ZifyBool Reals QArith Qcanon.
From Verif Require Import Mem MView MFlags SpecView MNum SpecNum Hoare MCopy MBlas1 MLap MGivens MCompat1 SpecBlas1 PCompat1 PSum Inst
  Properties_Copy Properties_Blas1 Properties_Compat3.
Local Open Scope Z_scope.
Local Open Scope prog_scope.

Section S.
  Context {T : Type} (K : num T).
  Hypothesis HR : is_ring K.
  Let HR' : ring_theory (zero K) (one K) (add K) (mul K) (sub K) (opp K) eq := HR.
  Add Ring KringC1 : HR'.

  (* arguments of the two-vector functions *)
  Definition two_args (L : Z -> bool) (n X incx Y incy : Z) : Prop :=
    0 <= n /\ incx <> 0 /\ incy <> 0 /\ ballocated L X incx n /\ ballocated L Y incy n /\ bdisjoint X incx Y incy n.

  Lemma same_idx : forall incx incy n k, incx * incy > 0 -> idx incx n k = idx incy n k.
  Proof. intros. unfold idx. destruct (incx <? 0) eqn:E1, (incy <? 0) eqn:E2; auto; nia. Qed.

  Lemma two_views : forall L n X incx Y incy, two_args L n X incx Y incy ->
    let x := vec2 n (Z.abs incx) X in let y := vec2 n (Z.abs incy) Y in
    isvec y /\ isvec x /\ wf y /\ wf x /\ allocated L y /\ allocated L x /\ disjoint y x /\ vlen y = n /\ vlen x = n.
  Proof.
    intros L n X incx Y incy (Hn & Hx & Hy & LX & LY & D) x y.
    destruct (vec2_ok n (Z.abs incx) X) as (A1 & A2 & A3); try lia.
    destruct (vec2_ok n (Z.abs incy) Y) as (B1 & B2 & B3); try lia.
    repeat (split; [first [assumption | apply ballocated_view; assumption | apply bdisjoint_views, bdisjoint_sym; assumption]|]).
    assumption.
  Qed.

  Lemma only_b : forall (m m' : Z -> T) n Y incy, only_changes (vec2 n (Z.abs incy) Y) m m' ->
    forall a, ~ bcell Y incy n a -> m' a = m a.
  Proof. intros m m' n Y incy O a Ha. apply O. rewrite vec2_bcell. auto. Qed.

  Lemma daxpy_wp : forall L (m : Z -> T) n alpha X incx Y incy,
    two_args L n X incx Y incy -> - 2 ^ 31 <= incx * incy < 2 ^ 31 ->
    wp (blas_axpyf K n alpha X incx Y incy) L m (fun _ m' =>
      (forall k, 0 <= k < n -> bel m' Y incy n k = add K (bel m Y incy n k) (mul K alpha (bel m X incx n k))) /\
      (forall a, ~ bcell Y incy n a -> m' a = m a)).
  Proof.
    intros L m n alpha X incx Y incy H Hp. unfold blas_axpyf. wbind. apply wp_imul; auto.
    destruct (two_views _ _ _ _ _ _ H) as (V1 & V2 & V3 & V4 & V5 & V6 & V7 & V8 & V9).
    destruct H as (Hn & Hx & Hy & LX & LY & D).
    destruct (incx * incy >? 0) eqn:E.
    - destruct (C09_axpy T K HR L m (vec2 n (Z.abs incy) Y) alpha (vec2 n (Z.abs incx) X)) as (m' & R & Z1 & O); auto; try congruence.
      wbind. exists 0, m'. split; auto. apply wp_ret. split; [|apply only_b; auto].
      intros k Hk. rewrite V8 in Z1. specialize (Z1 (idx incy n k) (idx_range _ _ _ Hk)).
      rewrite !vec2_bel in Z1 by auto. rewrite <- (same_idx incx incy) in Z1 by lia. rewrite !vec2_bel in Z1 by auto. exact Z1.
    - apply wp_walk with (I := fun k _ m' =>
        (forall j, 0 <= j < n -> bel m' Y incy n j =
           if j <? k then add K (bel m Y incy n j) (mul K alpha (bel m X incx n j)) else bel m Y incy n j) /\
        (forall a, ~ bcell Y incy n a -> m' a = m a)); auto.
      + split; auto. intros j Hj. replace (j <? 0) with false by lia. reflexivity.
      + intros k _ m1 Hk (H1 & H2).
        assert (EX : bel m1 X incx n k = bel m X incx n k).
        { apply H2. intro B. apply (D (badr X incx n k)); auto. exists k. auto. }
        wbind. apply wp_get2; auto. wbind. apply wp_get2; auto. apply wp_set2; auto. split.
        * intros j Hj. rewrite bel_upd by auto. destruct (j =? k) eqn:Ej.
          -- assert (j = k) by lia; subst. replace (k <? k + 1) with true by lia. rewrite EX, H1 by auto.
             replace (k <? k) with false by lia. reflexivity.
          -- rewrite H1 by auto. replace (j <? k + 1) with (j <? k) by lia. reflexivity.
        * intros a Ha. destruct (a =? badr Y incy n k) eqn:Ea; auto. exfalso. apply Ha. exists k. split; auto; lia.
      + intros _ m1 (H1 & H2). split; auto. intros k Hk. rewrite H1 by auto. replace (k <? n) with true by lia. reflexivity.
  Qed.

  Lemma dcopy_wp : forall L (m : Z -> T) n X incx Y incy,
    two_args L n X incx Y incy ->
    wp (blas_copyf n X incx Y incy) L m (fun _ m' =>
      (forall k, 0 <= k < n -> bel m' Y incy n k = bel m X incx n k) /\
      (forall a, ~ bcell Y incy n a -> m' a = m a)).
  Proof.
    intros L m n X incx Y incy H. unfold blas_copyf.
    destruct (two_views _ _ _ _ _ _ H) as (V1 & V2 & V3 & V4 & V5 & V6 & V7 & V8 & V9).
    destruct H as (Hn & Hx & Hy & LX & LY & D).
    destruct (_ || _) eqn:E.
    - destruct (C08_copy T L m (vec2 n (Z.abs incy) Y) (vec2 n (Z.abs incx) X)) as (m' & R & Z1 & _ & O); auto.
      wbind. exists 0, m'. split; auto. apply wp_ret. split; [|apply only_b; auto].
      intros k Hk. rewrite V8, V9 in Z1. pose proof (idx_range incy _ _ Hk) as Hi. specialize (Z1 (idx incy n k) Hi ltac:(lia)).
      rewrite !vec2_bel in Z1 by auto. rewrite <- (same_idx incx incy) in Z1 by nia. rewrite !vec2_bel in Z1 by auto. exact Z1.
    - apply wp_walk with (I := fun k _ m' =>
        (forall j, 0 <= j < n -> bel m' Y incy n j = if j <? k then bel m X incx n j else bel m Y incy n j) /\
        (forall a, ~ bcell Y incy n a -> m' a = m a)); auto.
      + split; auto. intros j Hj. replace (j <? 0) with false by lia. reflexivity.
      + intros k _ m1 Hk (H1 & H2).
        assert (EX : bel m1 X incx n k = bel m X incx n k).
        { apply H2. intro B. apply (D (badr X incx n k)); auto. exists k. auto. }
        wbind. apply wp_get2; auto. apply wp_set2; auto. split.
        * intros j Hj. rewrite bel_upd by auto. destruct (j =? k) eqn:Ej.
          -- assert (j = k) by lia; subst. replace (k <? k + 1) with true by lia. exact EX.
          -- rewrite H1 by auto. replace (j <? k + 1) with (j <? k) by lia. reflexivity.
        * intros a Ha. destruct (a =? badr Y incy n k) eqn:Ea; auto. exfalso. apply Ha. exists k. split; auto; lia.
      + intros _ m1 (H1 & H2). split; auto. intros k Hk. rewrite H1 by auto. replace (k <? n) with true by lia. reflexivity.
  Qed.

  (* both vectors written; g gives the new values of x and y *)
  Lemma pair_walk : forall L (m : Z -> T) n X incx Y incy (f : Z -> Z -> unit -> M T unit) (gx gy : T -> T -> T),
    two_args L n X incx Y incy ->
    (forall k m (Q : unit -> (Z -> T) -> Prop), 0 <= k < n ->
      (forall m', (forall j, 0 <= j < n -> bel m' X incx n j =
                     if j =? k then gx (bel m X incx n k) (bel m Y incy n k) else bel m X incx n j) ->
         (forall j, 0 <= j < n -> bel m' Y incy n j =
                     if j =? k then gy (bel m X incx n k) (bel m Y incy n k) else bel m Y incy n j) ->
         (forall a, ~ bcell X incx n a -> ~ bcell Y incy n a -> m' a = m a) -> Q tt m') ->
      wp (f (idx incx n k) (idx incy n k) tt) L m Q) ->
    wp (walk n incx incy f tt) L m (fun _ m' =>
      (forall k, 0 <= k < n -> bel m' X incx n k = gx (bel m X incx n k) (bel m Y incy n k) /\
                               bel m' Y incy n k = gy (bel m X incx n k) (bel m Y incy n k)) /\
      (forall a, ~ bcell X incx n a -> ~ bcell Y incy n a -> m' a = m a)).
  Proof.
    intros L m n X incx Y incy f gx gy (Hn & Hx & Hy & LX & LY & D) Hf.
    apply wp_walk with (I := fun k _ m' =>
        (forall j, 0 <= j < n -> bel m' X incx n j = (if j <? k then gx (bel m X incx n j) (bel m Y incy n j) else bel m X incx n j) /\
           bel m' Y incy n j = (if j <? k then gy (bel m X incx n j) (bel m Y incy n j) else bel m Y incy n j)) /\
        (forall a, ~ bcell X incx n a -> ~ bcell Y incy n a -> m' a = m a)); auto.
    - split; auto. intros j Hj. replace (j <? 0) with false by lia. auto.
    - intros k [] m1 Hk (H1 & H2). apply Hf; auto. intros m2 E1 E2 E3.
      destruct (H1 k Hk) as (F1 & F2). replace (k <? k) with false in * by lia. split.
      + intros j Hj. rewrite E1, E2 by auto. destruct (H1 j Hj) as (G1 & G2). destruct (j =? k) eqn:Ej.
        * assert (j = k) by lia; subst. replace (k <? k + 1) with true by lia. rewrite F1, F2. auto.
        * replace (j <? k + 1) with (j <? k) by lia. auto.
      + intros a A1 A2. rewrite E3 by auto. auto.
    - intros _ m1 (H1 & H2). split; auto. intros k Hk. destruct (H1 k Hk) as (G1 & G2). replace (k <? n) with true in * by lia. auto.
  Qed.

  Lemma two_writes : forall (m : Z -> T) n X incx Y incy k vx vy, two_args (fun _ => true) n X incx Y incy -> 0 <= k < n ->
    let m' := fun a => if a =? badr X incx n k then vx else if a =? badr Y incy n k then vy else m a in
    (forall j, 0 <= j < n -> bel m' X incx n j = if j =? k then vx else bel m X incx n j) /\
    (forall j, 0 <= j < n -> bel m' Y incy n j = if j =? k then vy else bel m Y incy n j) /\
    (forall a, ~ bcell X incx n a -> ~ bcell Y incy n a -> m' a = m a).
  Proof.
    intros m n X incx Y incy k vx vy (Hn & Hx & Hy & _ & _ & D) Hk m'. unfold m'. split; [|split].
    - intros j Hj. rewrite (bel_upd (fun a => if a =? badr Y incy n k then vy else m a)) by auto. destruct (j =? k); auto.
      apply bel_upd_o; auto.
    - intros j Hj. rewrite (bel_upd_o (fun a => if a =? badr Y incy n k then vy else m a)) by (auto; apply bdisjoint_sym; auto).
      apply bel_upd; auto.
    - intros a A1 A2. destruct (a =? badr X incx n k) eqn:E1; [exfalso; apply A1; exists k; split; auto; lia|].
      destruct (a =? badr Y incy n k) eqn:E2; [exfalso; apply A2; exists k; split; auto; lia|]. reflexivity.
  Qed.

  Lemma bel_ext : forall (m m' : Z -> T) X inc n k, (forall a, m a = m' a) -> bel m X inc n k = bel m' X inc n k.
  Proof. intros. apply H. Qed.

  Lemma drot_wp : forall L (m : Z -> T) n X incx Y incy c s,
    two_args L n X incx Y incy ->
    wp (blas_rotf K n X incx Y incy c s) L m (fun _ m' =>
      (forall k, 0 <= k < n ->
         bel m' X incx n k = add K (mul K c (bel m X incx n k)) (mul K s (bel m Y incy n k)) /\
         bel m' Y incy n k = sub K (mul K c (bel m Y incy n k)) (mul K s (bel m X incx n k))) /\
      (forall a, ~ bcell X incx n a -> ~ bcell Y incy n a -> m' a = m a)).
  Proof.
    intros L m n X incx Y incy c s H. unfold blas_rotf.
    apply (pair_walk L m n X incx Y incy _ (fun x y => add K (mul K c x) (mul K s y)) (fun x y => sub K (mul K c y) (mul K s x))); auto.
    intros k m1 Q Hk HQ. destruct H as (Hn & Hx & Hy & LX & LY & D).
    assert (HT : two_args (fun _ => true) n X incx Y incy) by (unfold two_args, ballocated; auto 10).
    wbind. apply wp_get2; auto. wbind. apply wp_get2; auto. wbind. apply wp_set2; auto. apply wp_set2; auto.
    cbn [armas_gvrotate fst snd].
    set (vx := add K _ _). set (vy := sub K _ _).
    destruct (two_writes m1 n X incx Y incy k vx vy HT Hk) as (W1 & W2 & W3).
    assert (EQ : forall a, (if a =? badr Y incy n k then vy else if a =? badr X incx n k then vx else m1 a) =
                           (if a =? badr X incx n k then vx else if a =? badr Y incy n k then vy else m1 a)).
    { intro a. destruct (a =? badr Y incy n k) eqn:E1, (a =? badr X incx n k) eqn:E2; auto.
      exfalso. apply (D a); exists k; split; auto; lia. }
    apply HQ.
    - intros j Hj. refine (eq_trans (bel_ext _ _ X incx n j EQ) _). apply W1; auto.
    - intros j Hj. refine (eq_trans (bel_ext _ _ Y incy n j EQ) _). apply W2; auto.
    - intros a A1 A2. rewrite EQ. apply W3; auto.
  Qed.

  Lemma dswap_wp : forall L (m : Z -> T) n X incx Y incy,
    two_args L n X incx Y incy -> - 2 ^ 31 <= incx * incy < 2 ^ 31 ->
    wp (blas_swapf n X incx Y incy) L m (fun _ m' =>
      (forall k, 0 <= k < n -> bel m' X incx n k = bel m Y incy n k /\ bel m' Y incy n k = bel m X incx n k) /\
      (forall a, ~ bcell X incx n a -> ~ bcell Y incy n a -> m' a = m a)).
  Proof.
    intros L m n X incx Y incy H Hp. unfold blas_swapf. wbind. apply wp_imul; auto.
    destruct (two_views _ _ _ _ _ _ H) as (V1 & V2 & V3 & V4 & V5 & V6 & V7 & V8 & V9).
    destruct (incx * incy >? 0) eqn:E.
    - destruct (C08_swap T L m (vec2 n (Z.abs incy) Y) (vec2 n (Z.abs incx) X)) as (m' & R & Z1 & O); auto; try congruence.
      wbind. exists 0, m'. split; auto. apply wp_ret. split.
      + intros k Hk. rewrite V9 in Z1. specialize (Z1 (idx incy n k) (idx_range _ _ _ Hk)).
        rewrite !vec2_bel in Z1 by auto. rewrite <- (same_idx incx incy) in Z1 by lia. rewrite !vec2_bel in Z1 by auto. tauto.
      + intros a A1 A2. apply O; rewrite vec2_bcell; auto.
    - apply (pair_walk L m n X incx Y incy _ (fun x y => y) (fun x y => x)); auto.
      intros k m1 Q Hk HQ. destruct H as (Hn & Hx & Hy & LX & LY & D).
      assert (HT : two_args (fun _ => true) n X incx Y incy) by (unfold two_args, ballocated; auto 10).
      wbind. apply wp_get2; auto. wbind. apply wp_get2; auto. wbind. apply wp_set2; auto. apply wp_set2; auto.
      destruct (two_writes m1 n X incx Y incy k (bel m1 Y incy n k) (bel m1 X incx n k) HT Hk) as (W1 & W2 & W3).
      apply HQ; auto.
  Qed.

  Lemma vsum_rev : forall n (f : Z -> T), 0 <= n -> vsum K n f = vsum K n (fun k => f (n - 1 - k)).
  Proof.
    intros n f Hn. revert f. revert n Hn. apply (vsum_ind (fun n => forall f, vsum K n f = vsum K n (fun k => f (n - 1 - k)))).
    - intros f. rewrite !vsum_0 by lia. reflexivity.
    - intros p Hp IH f. rewrite (vsum_S K) by lia. rewrite (IH f).
      rewrite (Z.add_comm p 1). rewrite (vsum_split K HR 1 p (fun k => f (1 + p - 1 - k))) by lia.
      rewrite (vsum_1 K HR). rewrite (Radd_comm HR). replace (1 + p - 1 - 0) with p by lia. f_equal.
      apply vsum_ext. intros k Hk. f_equal. lia.
  Qed.

  Lemma ddot_wp : forall E L (m : Z -> T) n X incx Y incy,
    two_args L n X incx Y incy -> - 2 ^ 31 <= incx * incy < 2 ^ 31 -> 0 <= e_b1 E -> n < Z.of_nat (e_fuel E) ->
    wp (blas_dotf K E n X incx Y incy) L m (fun r m' =>
      r = vsum K n (fun k => mul K (bel m X incx n k) (bel m Y incy n k)) /\ m' = m).
  Proof.
    intros E L m n X incx Y incy H Hp Hb Hf. unfold blas_dotf. wbind. apply wp_imul; auto.
    destruct (two_views _ _ _ _ _ _ H) as (V1 & V2 & V3 & V4 & V5 & V6 & V7 & V8 & V9).
    destruct H as (Hn & Hx & Hy & LX & LY & D).
    destruct (incx * incy >? 0) eqn:Es.
    - eexists _, m. split; [apply (C14_dot T K HR); auto; congruence|]. split; [|reflexivity]. rewrite V8.
      assert (Ei : forall k, idx incx n k = idx incy n k) by (intro; apply same_idx; lia).
      transitivity (vsum K n (fun k => mul K (bel m X incx n (idx incy n k)) (bel m Y incy n (idx incy n k)))).
      + apply vsum_ext. intros k Hk. rewrite (Rmul_comm HR). pose proof (idx_range incy _ _ Hk) as Hi.
        rewrite <- !vec2_bel by auto. rewrite Ei, idx_idx. reflexivity.
      + unfold idx. destruct (incy <? 0); [|reflexivity].
        symmetry. apply (vsum_rev n (fun k => mul K (bel m X incx n k) (bel m Y incy n k))). auto.
    - apply wp_walk with (I := fun k v m' => v = vsum K k (fun k => mul K (bel m X incx n k) (bel m Y incy n k)) /\ m' = m); auto.
      intros k v m1 Hk (-> & ->). wbind. apply wp_get2; auto. wbind. apply wp_get2; auto. apply wp_ret. split; auto.
      rewrite (vsum_S K) by lia. reflexivity.
  Qed.
End S.

(* ---- two vectors ---- *)

(* Missing: increments whose product is not an int (C88_int_refuted) *)
Theorem C88_daxpy_partial : forall T (K : num T), is_ring K ->
  forall L (m : Z -> T) n alpha X incx Y incy,
  two_args L n X incx Y incy -> - 2 ^ 31 <= incx * incy < 2 ^ 31 ->
  exists m', blas_axpyf K n alpha X incx Y incy L m = Some (tt, m') /\
    (forall k, 0 <= k < n -> bel m' Y incy n k = add K (bel m Y incy n k) (mul K alpha (bel m X incx n k))) /\
    (forall a, ~ bcell Y incy n a -> m' a = m a).
Proof. intros T K HR L m n alpha X incx Y incy H Hp. destruct (daxpy_wp K HR L m n alpha X incx Y incy H Hp) as ([] & m' & R & H1). eauto. Qed.
Print Assumptions C88_daxpy_partial.

Theorem C88_dswap_partial : forall T L (m : Z -> T) n X incx Y incy,
  two_args L n X incx Y incy -> - 2 ^ 31 <= incx * incy < 2 ^ 31 ->
  exists m', blas_swapf n X incx Y incy L m = Some (tt, m') /\
    (forall k, 0 <= k < n -> bel m' X incx n k = bel m Y incy n k /\ bel m' Y incy n k = bel m X incx n k) /\
    (forall a, ~ bcell X incx n a -> ~ bcell Y incy n a -> m' a = m a).
Proof. intros T L m n X incx Y incy H Hp. destruct (dswap_wp L m n X incx Y incy H Hp) as ([] & m' & R & H1). eauto. Qed.
Print Assumptions C88_dswap_partial.

Theorem C88_ddot_partial : forall T (K : num T), is_ring K ->
  forall E L (m : Z -> T) n X incx Y incy,
  two_args L n X incx Y incy -> - 2 ^ 31 <= incx * incy < 2 ^ 31 -> 0 <= e_b1 E -> n < Z.of_nat (e_fuel E) ->
  blas_dotf K E n X incx Y incy L m = Some (vsum K n (fun k => mul K (bel m X incx n k) (bel m Y incy n k)), m).
Proof.
  intros T K HR E L m n X incx Y incy H Hp Hb Hf.
  destruct (ddot_wp K HR E L m n X incx Y incy H Hp Hb Hf) as (r & m' & R & -> & ->). exact R.
Qed.
Print Assumptions C88_ddot_partial.

Theorem C88_dcopy : forall T L (m : Z -> T) n X incx Y incy,
  two_args L n X incx Y incy ->
  exists m', blas_copyf n X incx Y incy L m = Some (tt, m') /\
    (forall k, 0 <= k < n -> bel m' Y incy n k = bel m X incx n k) /\
    (forall a, ~ bcell Y incy n a -> m' a = m a).
Proof. intros T L m n X incx Y incy H. destruct (dcopy_wp L m n X incx Y incy H) as ([] & m' & R & H1). eauto. Qed.
Print Assumptions C88_dcopy.

Theorem C88_drot : forall T (K : num T) L (m : Z -> T) n X incx Y incy c s,
  two_args L n X incx Y incy ->
  exists m', blas_rotf K n X incx Y incy c s L m = Some (tt, m') /\
    (forall k, 0 <= k < n ->
       bel m' X incx n k = add K (mul K c (bel m X incx n k)) (mul K s (bel m Y incy n k)) /\
       bel m' Y incy n k = sub K (mul K c (bel m Y incy n k)) (mul K s (bel m X incx n k))) /\
    (forall a, ~ bcell X incx n a -> ~ bcell Y incy n a -> m' a = m a).
Proof. intros T K L m n X incx Y incy c s H. destruct (drot_wp K L m n X incx Y incy c s H) as ([] & m' & R & H1). eauto. Qed.
Print Assumptions C88_drot.

(* increments of 65536: the product of the increments overflows, although only one element of each
   vector is used *)
Theorem C88_int_refuted : exists L X Y, two_args L 1 X 65536 Y 65536 /\
  forall T (K : num T) E (m : Z -> T) alpha,
    blas_axpyf K 1 alpha X 65536 Y 65536 L m = None /\
    blas_swapf 1 X 65536 Y 65536 L m = None /\
    blas_dotf K E 1 X 65536 Y 65536 L m = None.
Proof.
  exists (fun a => (a =? 10) || (a =? 20)), 10, 20. split.
  - unfold two_args, ballocated, bdisjoint, bcell, badr. repeat split; try lia.
    + intros p (k & Hk & ->). cbn [Z.ltb Z.compare]. assert (k = 0) by lia; subst. reflexivity.
    + intros p (k & Hk & ->). cbn [Z.ltb Z.compare]. assert (k = 0) by lia; subst. reflexivity.
    + intros p (k & Hk & ->) (k' & Hk' & H). cbn [Z.ltb Z.compare] in H. assert (k = 0) by lia. assert (k' = 0) by lia. subst. discriminate.
  - intros. split; [|split]; reflexivity.
Qed.
Print Assumptions C88_int_refuted.

(* ---- one vector ---- *)

Definition one_args (L : Z -> bool) (n X incx : Z) : Prop := 0 <= n /\ 1 <= incx /\ ballocated L X incx n.

Lemma one_view : forall L n X incx, one_args L n X incx ->
  vec1 n incx X = vec2 n (Z.abs incx) X /\ isvec (vec1 n incx X) /\ wf (vec1 n incx X) /\ allocated L (vec1 n incx X) /\
  vlen (vec1 n incx X) = n /\
  forall T (m : Z -> T) k, 0 <= k < n -> velt m (vec1 n incx X) k = bel m X incx n k.
Proof.
  intros L n X incx (Hn & Hx & LX). assert (E : vec1 n incx X = vec2 n (Z.abs incx) X) by (rewrite Z.abs_eq by lia; reflexivity).
  split; auto. rewrite E. destruct (vec2_ok n (Z.abs incx) X) as (A1 & A2 & A3); try lia.
  repeat (split; [first [assumption|apply ballocated_view; assumption]|]).
  intros T m k Hk. rewrite <- vec2_bel by auto. unfold idx. replace (incx <? 0) with false by lia. reflexivity.
Qed.

(* Missing: increments <= 0, for which the reference does nothing or returns 0 (C88_negative_refuted) *)
Theorem C88_dscal_partial : forall T (K : num T) L (m : Z -> T) n X incx alpha, one_args L n X incx ->
  exists m', blas_scalf K n X incx alpha L m = Some (tt, m') /\
    (forall k, 0 <= k < n -> bel m' X incx n k = mul K (bel m X incx n k) alpha) /\
    (forall a, ~ bcell X incx n a -> m' a = m a).
Proof.
  intros T K L m n X incx alpha H. destruct (one_view _ _ _ _ H) as (E & V1 & V2 & V3 & V4 & V5).
  destruct (C10_scale T K L m (vec1 n incx X) alpha) as (m' & R & H1 & O); auto.
  exists m'. unfold blas_scalf. rewrite run_bind, R. split; [reflexivity|]. split.
  - intros k Hk. rewrite <- !V5 by auto. apply H1. rewrite V4. auto.
  - rewrite E in O. apply only_b. exact O.
Qed.
Print Assumptions C88_dscal_partial.

Theorem C88_dasum_partial : forall T (K : num T), is_ring K -> forall E L (m : Z -> T) n X incx, one_args L n X incx ->
  1 <= e_b1 E -> n < Z.of_nat (e_fuel E) ->
  blas_asumf K E n X incx L m = Some (vsum K n (fun k => abs K (bel m X incx n k)), m).
Proof.
  intros T K HR E L m n X incx H Hb Hf. destruct (one_view _ _ _ _ H) as (Ev & V1 & V2 & V3 & V4 & V5).
  unfold blas_asumf. rewrite (C15_asum T K HR) by (auto; lia). rewrite V4. f_equal. f_equal. apply vsum_ext.
  intros k Hk. rewrite V5 by auto. reflexivity.
Qed.
Print Assumptions C88_dasum_partial.

Theorem C88_dnrm2_partial : forall T (K : num T), is_field K -> is_ordered K -> eqb_ok K -> sqrt_ok K ->
  forall L (m : Z -> T) n X incx, one_args L n X incx ->
  exists r, blas_nrm2f K n X incx L m = Some (r, m) /\ ltb K r (zero K) = false /\
    mul K r r = vsum K n (fun k => mul K (bel m X incx n k) (bel m X incx n k)).
Proof.
  intros T K HF HO HE HS L m n X incx H. destruct (one_view _ _ _ _ H) as (Ev & V1 & V2 & V3 & V4 & V5).
  destruct (C18_nrm2 T K HF HO HE L m (vec1 n incx X) HS V1 V2 V3) as (r & R & H1 & H2). exists r. split; auto. split; auto.
  rewrite H2, V4. apply vsum_ext. intros k Hk. rewrite V5 by auto. reflexivity.
Qed.
Print Assumptions C88_dnrm2_partial.

(* Missing: the index counts from 0, that of the reference from 1 (C88_idamax_refuted) *)
Theorem C88_idamax_partial : forall T (K : num T), ltb_ok K -> (forall t, ltb K (abs K t) (zero K) = false) ->
  forall L (m : Z -> T) n X incx, one_args L n X incx -> 0 < n ->
  exists ix, blas_iamaxf K n X incx L m = Some (ix, m) /\ 0 <= ix < n /\
    (forall k, 0 <= k < n -> ltb K (abs K (bel m X incx n ix)) (abs K (bel m X incx n k)) = false) /\
    (forall k, 0 <= k < ix -> ltb K (abs K (bel m X incx n k)) (abs K (bel m X incx n ix)) = true).
Proof.
  intros T K HO HA L m n X incx H Hn. destruct (one_view _ _ _ _ H) as (Ev & V1 & V2 & V3 & V4 & V5).
  destruct (C16_iamax T K HO L m (vec1 n incx X) HA V1 V2 V3) as (ix & R & H1 & H2 & H3); [lia|]. rewrite V4 in *.
  exists ix. split; auto. split; auto. split.
  - intros k Hk. rewrite <- !V5 by lia. auto.
  - intros k Hk. rewrite <- !V5 by lia. auto.
Qed.
Print Assumptions C88_idamax_partial.

(* what the reference says: the result is the number, counted from 1, of the first element of
   largest absolute value *)
Definition idamax_ref {T} (K : num T) (m : Z -> T) (n X incx r : Z) : Prop :=
  1 <= r <= n /\
  (forall k, 1 <= k <= n -> ltb K (abs K (bel m X incx n (r - 1))) (abs K (bel m X incx n (k - 1))) = false) /\
  (forall k, 1 <= k < r -> ltb K (abs K (bel m X incx n (k - 1))) (abs K (bel m X incx n (r - 1))) = true).

(* it is never the result *)
Theorem C88_idamax_refuted : forall T (K : num T), ltb_ok K -> (forall t, ltb K (abs K t) (zero K) = false) ->
  forall L (m : Z -> T) n X incx, one_args L n X incx -> 0 < n ->
  forall r, idamax_ref K m n X incx r -> exists ix, blas_iamaxf K n X incx L m = Some (ix, m) /\ ix <> r.
Proof.
  intros T K HO HA L m n X incx H Hn r (Hr & R1 & R2).
  destruct (C88_idamax_partial T K HO HA L m n X incx H Hn) as (ix & R & I1 & I2 & I3).
  exists ix. split; auto. intros ->.
  specialize (R1 (r + 1)). specialize (I3 (r - 1)). replace (r + 1 - 1) with r in R1 by lia. specialize (I3 ltac:(lia)).
  assert (X0 : 1 <= r + 1 <= n) by lia. specialize (R1 X0). congruence.
Qed.
Print Assumptions C88_idamax_refuted.

(* a negative increment: elements below X are used *)
Theorem C88_negative_refuted : exists L n X incx (m : Z -> Z), 0 < n /\ incx < 0 /\
  (* even the elements the two-vector functions would use are allocated *)
  ballocated L X incx n /\
  blas_scalf Znum n X incx 3 L m = None /\ blas_asumf Znum c3_E n X incx L m = None /\
  blas_nrm2f Znum n X incx L m = None /\ blas_iamaxf Znum n X incx L m = None.
Proof.
  exists (fun a => 10 <=? a), 2, 10, (-2), (fun a => a). split; [lia|]. split; [lia|]. split.
  - intros p (k & Hk & ->). unfold badr. replace (-2 <? 0) with true by reflexivity. lia.
  - vm_compute. auto.
Qed.
Print Assumptions C88_negative_refuted.

(* xROTG: the reference replaces the first argument by r *)
Theorem C88_drotg_partial : forall T (K : num T) L (m : Z -> T) sa sb c s,
  L sa = true -> L sb = true -> L c = true -> L s = true -> c <> s ->
  exists m', blas_rotgf K sa sb c s L m = Some (tt, m') /\
    (let '(cv, sv, _) := armas_gvcompute K (m sa) (m sb) in m' c = cv /\ m' s = sv) /\
    (forall a, a <> c -> a <> s -> m' a = m a).
Proof.
  intros T K L m sa sb c s L1 L2 L3 L4 N. unfold blas_rotgf.
  destruct (armas_gvcompute K (m sa) (m sb)) as [[cv sv] r] eqn:G.
  eexists. rewrite !run_bind, run_rd, L1, run_bind, run_rd, L2, G. cbn [fst snd]. rewrite run_bind, run_wr, L3, run_wr, L4.
  split; [reflexivity|]. split.
  - rewrite !Z.eqb_refl. replace (c =? s) with false by lia. auto.
  - intros a A1 A2. replace (a =? s) with false by lia. replace (a =? c) with false by lia. reflexivity.
Qed.
Print Assumptions C88_drotg_partial.

Theorem C88_drotg_refuted : forall T (K : num T) L (m : Z -> T) sa sb c s,
  L sa = true -> L sb = true -> L c = true -> L s = true -> c <> s -> sa <> c -> sa <> s ->
  (let '(_, _, r) := armas_gvcompute K (m sa) (m sb) in r <> m sa) ->
  exists m', blas_rotgf K sa sb c s L m = Some (tt, m') /\ m' sa <> (let '(_, _, r) := armas_gvcompute K (m sa) (m sb) in r).
Proof.
  intros T K L m sa sb c s L1 L2 L3 L4 N N1 N2 H.
  destruct (C88_drotg_partial T K L m sa sb c s L1 L2 L3 L4 N) as (m' & R & _ & O). exists m'. split; auto.
  rewrite O by auto. destruct (armas_gvcompute K (m sa) (m sb)) as [[cv sv] r]. auto.
Qed.
Print Assumptions C88_drotg_refuted.

(* a = 0: r is b *)
Example C88_drotg_sample : (let '(_, _, r) := armas_gvcompute Znum 0 5 in r <> 0).
Proof. vm_compute. discriminate. Qed.

(* vectors of 4 elements with the increments -3 and 2, 2 and 1, -1 and -2 *)
Example C88_nonvacuous :
  two_args cp_L 4 200 (-3) 300 2 /\ two_args cp_L 4 200 2 300 1 /\ two_args cp_L 4 200 (-1) 300 (-2) /\ one_args cp_L 4 200 3 /\
  (match blas_axpyf Znum 4 10 200 (-3) 300 2 cp_L (fun a => a) with
   | Some (_, m') => m' 300 = 300 + 2090 /\ m' 302 = 302 + 2060 /\ m' 304 = 304 + 2030 /\ m' 306 = 306 + 2000 | None => False end) /\
  blas_dotf Znum c3_E 4 200 (-1) 300 (-2) cp_L (fun a => a) = Some (200 * 300 + 201 * 302 + 202 * 304 + 203 * 306, fun a => a) /\
  blas_iamaxf Znum 4 200 3 cp_L (fun a => a) = Some (3, fun a => a).
Proof.
  assert (HB : forall a inc, 100 <= a <= 1000 -> -10 <= inc <= 10 -> ballocated cp_L a inc 4).
  { intros a inc Ha Hi p (k & Hk & ->). unfold badr, cp_L. destruct (inc <? 0) eqn:E; nia. }
  assert (HD : forall i1 i2, -10 <= i1 <= 10 -> -10 <= i2 <= 10 -> bdisjoint 200 i1 300 i2 4).
  { intros i1 i2 H1 H2 p (k & Hk & ->) (k' & Hk' & H). unfold badr in H. destruct (i1 <? 0) eqn:E1, (i2 <? 0) eqn:E2; nia. }
  assert (HT : forall i1 i2, -10 <= i1 <= 10 -> -10 <= i2 <= 10 -> i1 <> 0 -> i2 <> 0 -> two_args cp_L 4 200 i1 300 i2).
  { intros. unfold two_args. split; [lia|]. split; [lia|]. split; [lia|]. split; [apply HB; lia|]. split; [apply HB; lia|]. apply HD; lia. }
  split; [apply HT; lia|]. split; [apply HT; lia|]. split; [apply HT; lia|].
  split; [split; [lia|]; split; [lia|]; apply HB; lia|].
  split; [vm_compute; auto|]. split; vm_compute; reflexivity.
Qed.
