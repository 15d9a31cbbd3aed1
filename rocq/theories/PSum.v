(* PSum.v: finite sums over a commutative ring. *)
From Coq Require Import ZArith Lia Ring Bool.
From Verif Require Import MNum SpecNum.
Local Open Scope Z_scope.

Section Sums.
  Context {T : Type} (K : num T).
  Hypothesis HR : is_ring K.
  Let HR' : ring_theory (zero K) (one K) (add K) (mul K) (sub K) (opp K) eq := HR.
  Add Ring Kring : HR'.
  Local Notation "x +' y" := (add K x y) (at level 50, left associativity).
  Local Notation "x *' y" := (mul K x y) (at level 40, left associativity).

  Lemma vsum_0 : forall n f, n <= 0 -> vsum K n f = zero K.
  Proof. intros n f H. unfold vsum. replace (Z.to_nat n) with O by lia. reflexivity. Qed.

  Lemma vsum_S : forall n f, 0 <= n -> vsum K (n + 1) f = vsum K n f +' f n.
  Proof.
    intros n f H. unfold vsum. replace (Z.to_nat (n + 1)) with (S (Z.to_nat n)) by lia.
    cbn. rewrite Z2Nat.id by lia. reflexivity.
  Qed.

  Lemma vsum_ext : forall n f g, (forall k, 0 <= k < n -> f k = g k) -> vsum K n f = vsum K n g.
  Proof.
    intros n f g H. unfold vsum.
    assert (H' : forall k, 0 <= k < Z.of_nat (Z.to_nat n) -> f k = g k) by (intros; apply H; lia).
    clear H. induction (Z.to_nat n) as [|k IH]; cbn [bigsum]; auto.
    rewrite H' by lia. f_equal. apply IH. intros j Hj. apply H'. lia.
  Qed.

  Lemma vsum_ind : forall (P : Z -> Prop), P 0 -> (forall n, 0 <= n -> P n -> P (n + 1)) ->
    forall n, 0 <= n -> P n.
  Proof.
    intros P H0 HS n Hn. apply natlike_ind; auto.
  Qed.

  Lemma vsum_split : forall a b f, 0 <= a -> 0 <= b ->
    vsum K (a + b) f = vsum K a f +' vsum K b (fun k => f (a + k)).
  Proof.
    intros a b f Ha Hb. apply (vsum_ind (fun b => vsum K (a + b) f = vsum K a f +' vsum K b (fun k => f (a + k)))); auto.
    - rewrite Z.add_0_r, (vsum_0 0) by lia. ring.
    - intros n Hn IH. rewrite Z.add_assoc, !vsum_S, IH by lia. ring.
  Qed.

  Lemma vsum_add : forall n f g, vsum K n (fun k => f k +' g k) = vsum K n f +' vsum K n g.
  Proof.
    intros n f g. destruct (Z_le_dec n 0). rewrite !vsum_0 by lia; ring.
    apply (vsum_ind (fun n => vsum K n (fun k => f k +' g k) = vsum K n f +' vsum K n g)); try lia.
    - rewrite !vsum_0 by lia; ring.
    - intros k Hk IH. rewrite !vsum_S, IH by lia. ring.
  Qed.

  Lemma vsum_mul_l : forall n c f, vsum K n (fun k => c *' f k) = c *' vsum K n f.
  Proof.
    intros n c f. destruct (Z_le_dec n 0). rewrite !vsum_0 by lia; ring.
    apply (vsum_ind (fun n => vsum K n (fun k => c *' f k) = c *' vsum K n f)); try lia.
    - rewrite !vsum_0 by lia; ring.
    - intros k Hk IH. rewrite !vsum_S, IH by lia. ring.
  Qed.

  Lemma vsum_mul_r : forall n c f, vsum K n (fun k => f k *' c) = vsum K n f *' c.
  Proof.
    intros n c f. rewrite <- (vsum_ext n (fun k => c *' f k)).
    rewrite vsum_mul_l. ring. intros; ring.
  Qed.

  Lemma vsum_zero : forall n f, (forall k, 0 <= k < n -> f k = zero K) -> vsum K n f = zero K.
  Proof.
    intros n f H. destruct (Z_le_dec n 0). rewrite !vsum_0 by lia; ring.
    revert H. apply (vsum_ind (fun n => (forall k, 0 <= k < n -> f k = zero K) -> vsum K n f = zero K)); try lia.
    - intros _. apply vsum_0; lia.
    - intros k Hk IH H. rewrite vsum_S, IH, H by (try lia; intros; apply H; lia). ring.
  Qed.

  (* only one term differs from zero *)
  Lemma vsum_one : forall n i f, 0 <= i < n ->
    (forall k, 0 <= k < n -> k <> i -> f k = zero K) -> vsum K n f = f i.
  Proof.
    intros n i f Hi H. replace n with (i + (1 + (n - i - 1))) by lia.
    rewrite !vsum_split by lia. rewrite (vsum_zero i) by (intros; apply H; lia).
    rewrite (vsum_zero (n - i - 1)) by (intros; apply H; lia).
    change 1 with (0 + 1). rewrite vsum_S, vsum_0 by lia. rewrite Z.add_0_r. ring.
  Qed.

  (* exchange the order of summation *)
  Lemma vsum_swap : forall n p f,
    vsum K n (fun i => vsum K p (fun j => f i j)) = vsum K p (fun j => vsum K n (fun i => f i j)).
  Proof.
    intros n p f. destruct (Z_le_dec n 0).
    { rewrite vsum_0 by lia. symmetry. apply vsum_zero. intros; apply vsum_0; lia. }
    apply (vsum_ind (fun n => vsum K n (fun i => vsum K p (fun j => f i j)) =
                              vsum K p (fun j => vsum K n (fun i => f i j)))); try lia.
    - rewrite vsum_0 by lia. symmetry. apply vsum_zero. intros; apply vsum_0; lia.
    - intros k Hk IH. rewrite vsum_S, IH by lia. rewrite <- vsum_add.
      apply vsum_ext. intros j Hj. rewrite vsum_S by lia. reflexivity.
  Qed.
  Lemma vsum_1 : forall f, vsum K 1 f = f 0.
  Proof. intros f. unfold vsum. cbn. apply (Radd_0_l HR). Qed.
End Sums.
