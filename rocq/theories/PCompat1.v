(* PCompat1.v: lemmas about the Fortran BLAS names for vector operations. *)
From Coq Require Import ZArith Lia Bool ZifyBool.
From Verif Require Import Mem MView SpecView MNum SpecNum Hoare MBlas1 MGivens MCompat1 SpecBlas1.
Local Open Scope Z_scope.
Local Open Scope prog_scope.

(* position of element k from the start of the storage *)
Definition idx (inc n k : Z) : Z := if inc <? 0 then n - 1 - k else k.

Lemma idx_range : forall inc n k, 0 <= k < n -> 0 <= idx inc n k < n.
Proof. intros. unfold idx. destruct (inc <? 0); lia. Qed.

Lemma idx_idx : forall inc n k, idx inc n (idx inc n k) = k.
Proof. intros. unfold idx. destruct (inc <? 0); lia. Qed.

Lemma badr_idx : forall a inc n k, badr a inc n k = a + idx inc n k * Z.abs inc.
Proof.
  intros. unfold badr, idx. destruct (inc <? 0) eqn:E.
  - rewrite Z.abs_neq by lia. ring.
  - rewrite Z.abs_eq by lia. reflexivity.
Qed.

Lemma badr_inj : forall a inc n j k, inc <> 0 -> badr a inc n j = badr a inc n k -> j = k.
Proof. intros a inc n j k H. unfold badr. destruct (inc <? 0); nia. Qed.

Lemma vec2_rows : forall n inc X, 0 <= n -> rows (vec2 n inc X) = 1 \/ (rows (vec2 n inc X) = n /\ inc = 1).
Proof. intros. unfold vec2. destruct (inc =? 1) eqn:E; cbn [rows armas_make]; [right|left]; lia. Qed.

Lemma vec2_ok : forall n inc X, 0 <= n -> 1 <= inc ->
  isvec (vec2 n inc X) /\ wf (vec2 n inc X) /\ vlen (vec2 n inc X) = n.
Proof.
  intros n inc X Hn Hi. unfold vec2, isvec, wf, vlen. destruct (inc =? 1) eqn:E; cbn [rows cols step armas_make]; lia.
Qed.

Lemma vec2_at : forall n inc X k, 0 <= k < n ->
  elems (vec2 n inc X) + (if rows (vec2 n inc X) =? 1 then k * step (vec2 n inc X) else k) = X + k * inc.
Proof.
  intros n inc X k Hk. unfold vec2. destruct (inc =? 1) eqn:E; cbn [rows step elems armas_make].
  - assert (inc = 1) by lia; subst. destruct (n =? 1) eqn:E1; nia.
  - rewrite Z.eqb_refl. reflexivity.
Qed.

Lemma vec2_velt : forall T (m : Z -> T) n inc X k, 0 <= k < n -> velt m (vec2 n inc X) k = m (X + k * inc).
Proof.
  intros T m n inc X k Hk. unfold velt, elt, vec_pos. rewrite <- (vec2_at n inc X k Hk).
  destruct (rows (vec2 n inc X) =? 1); cbn [fst snd]; f_equal; ring.
Qed.

Lemma vec2_cell : forall n inc X p, cell (vec2 n inc X) p <-> exists k, 0 <= k < n /\ p = X + k * inc.
Proof.
  intros n inc X p. unfold vec2, cell, pos. destruct (inc =? 1) eqn:E; cbn [rows cols step elems armas_make]; split.
  - intros (i & j & H & ->). exists i. nia.
  - intros (k & H & ->). exists k, 0. nia.
  - intros (i & j & H & ->). exists j. nia.
  - intros (k & H & ->). exists 0, k. nia.
Qed.

Lemma vec2_bcell : forall n inc X p, cell (vec2 n (Z.abs inc) X) p <-> bcell X inc n p.
Proof.
  intros. rewrite vec2_cell. unfold bcell. split; intros (k & H & ->); exists (idx inc n k).
  - split; [apply idx_range; auto|]. rewrite badr_idx, idx_idx. reflexivity.
  - split; [apply idx_range; auto|]. apply badr_idx.
Qed.

Lemma vec2_bel : forall T (m : Z -> T) n inc X k, 0 <= k < n ->
  velt m (vec2 n (Z.abs inc) X) (idx inc n k) = bel m X inc n k.
Proof. intros. rewrite vec2_velt by (apply idx_range; auto). unfold bel. rewrite badr_idx. reflexivity. Qed.

Section W.
  Context {T : Type}.

  Lemma wp_walk : forall A (f : Z -> Z -> A -> M T A) L (I : Z -> A -> (Z -> T) -> Prop) n incx incy a m
      (Q : A -> (Z -> T) -> Prop), 0 <= n ->
    I 0 a m ->
    (forall k a m, 0 <= k < n -> I k a m -> wp (f (idx incx n k) (idx incy n k) a) L m (I (k + 1))) ->
    (forall a m, I n a m -> Q a m) ->
    wp (walk n incx incy f a) L m Q.
  Proof.
    intros A f L I n incx incy a m Q Hn H0 Hs HQ. unfold walk. wbind.
    apply wp_for1_acc with (I := fun k s m => I k (snd s) m /\
      (k < n -> fst (fst s) = idx incx n k /\ snd (fst s) = idx incy n k)).
    - cbn [fst snd]. split; auto. intros _. unfold idx. destruct (incx <? 0), (incy <? 0); lia.
    - intros k [[ix iy] a1] m1 Hk (H1 & H2). cbn [fst snd] in *. destruct (H2 ltac:(lia)) as (E1 & E2). rewrite E1, E2.
      wbind. eapply wp_conseq; [apply Hs; auto|]. intros a2 m2 H3. apply wp_ret. cbn [fst snd]. split; auto.
      intros H4. unfold idx. split.
      + destruct (incx <? 0); [|reflexivity]. destruct (n - 1 =? 0) eqn:E; lia.
      + destruct (incy <? 0); [|reflexivity]. destruct (n - 1 =? 0) eqn:E; lia.
    - intros [[ix iy] a1] m1 (H1 & _). apply wp_ret. cbn [fst snd] in *. apply HQ. rewrite Z.max_r in H1 by lia. auto.
  Qed.

  Lemma wp_get2 : forall L m n inc X k (Q : T -> (Z -> T) -> Prop), 0 <= k < n -> ballocated L X inc n ->
    Q (bel m X inc n k) m -> wp (armas_get_at_unsafe (vec2 n (Z.abs inc) X) (idx inc n k)) L m Q.
  Proof.
    intros L m n inc X k Q Hk HL HQ. unfold armas_get_at_unsafe. rewrite vec2_at by (apply idx_range; auto).
    rewrite <- badr_idx. apply wp_rd; auto. apply HL. exists k. auto.
  Qed.

  Lemma wp_set2 : forall L m n inc X k v (Q : unit -> (Z -> T) -> Prop), 0 <= k < n -> ballocated L X inc n ->
    Q tt (fun a => if a =? badr X inc n k then v else m a) ->
    wp (armas_set_at_unsafe (vec2 n (Z.abs inc) X) (idx inc n k) v) L m Q.
  Proof.
    intros L m n inc X k v Q Hk HL HQ. unfold armas_set_at_unsafe. rewrite vec2_at by (apply idx_range; auto).
    rewrite <- badr_idx. apply wp_wr; auto. apply HL. exists k. auto.
  Qed.

  Lemma wp_imul : forall L m a b (Q : Z -> (Z -> T) -> Prop), - 2 ^ 31 <= a * b < 2 ^ 31 -> Q (a * b) m -> wp (imul a b) L m Q.
  Proof. intros. unfold imul. replace (_ && _) with true by lia. apply wp_ret. auto. Qed.

  (* writes to element k of y only *)
  Lemma bel_upd : forall (m : Z -> T) X inc n k v j, inc <> 0 ->
    bel (fun a => if a =? badr X inc n k then v else m a) X inc n j = if j =? k then v else bel m X inc n j.
  Proof.
    intros. unfold bel. destruct (j =? k) eqn:E.
    - assert (j = k) by lia; subst. rewrite Z.eqb_refl. reflexivity.
    - destruct (badr X inc n j =? badr X inc n k) eqn:E1; [|reflexivity].
      apply Z.eqb_eq, badr_inj in E1; lia.
  Qed.

  Lemma bel_upd_o : forall (m : Z -> T) X incx Y incy n k v j, bdisjoint X incx Y incy n -> 0 <= k < n -> 0 <= j < n ->
    bel (fun a => if a =? badr Y incy n k then v else m a) X incx n j = bel m X incx n j.
  Proof.
    intros. unfold bel. destruct (badr X incx n j =? badr Y incy n k) eqn:E; [|reflexivity].
    exfalso. apply (H (badr X incx n j)); [exists j; auto|exists k; split; auto; lia].
  Qed.

  Lemma bdisjoint_sym : forall X incx Y incy n, bdisjoint X incx Y incy n -> bdisjoint Y incy X incx n.
  Proof. unfold bdisjoint. intros. eauto. Qed.

  Lemma bdisjoint_views : forall X incx Y incy n, bdisjoint X incx Y incy n ->
    disjoint (vec2 n (Z.abs incx) X) (vec2 n (Z.abs incy) Y).
  Proof. intros X incx Y incy n H a H1 H2. apply vec2_bcell in H1. apply vec2_bcell in H2. eapply H; eauto. Qed.

  Lemma ballocated_view : forall L X inc n, ballocated L X inc n -> allocated L (vec2 n (Z.abs inc) X).
  Proof. intros L X inc n H a H1. apply H. apply vec2_bcell. auto. Qed.
End W.
