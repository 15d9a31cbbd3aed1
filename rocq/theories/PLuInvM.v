(* PLuInvM.v: from U*X*L = I to the inverse of L*U on both sides, and the interchanges of its columns. *)
From Coq Require Import ZArith Lia Bool ZifyBool Ring Field.
From Verif Require Import MNum SpecNum PSum PInvM MPivot SpecPivot PPivot Properties_Pivot.
Local Open Scope Z_scope.
Ltac lia := Lia.lia.

Section M.
  Context {T : Type} (K : num T).
  Hypotheses (HF : is_field K).
  Let HR : is_ring K := Field_theory.F_R HF.
  Let HR' : ring_theory (zero K) (one K) (add K) (mul K) (sub K) (opp K) eq := HR.
  Add Ring KringLM : HR'.
  Local Notation "a +' b" := (add K a b) (at level 50, left associativity).
  Local Notation "a -' b" := (sub K a b) (at level 50, left associativity).
  Local Notation "a *' b" := (mul K a b) (at level 40, left associativity).
  Local Notation "0'" := (zero K).
  Local Notation "1'" := (one K).
  Local Notation tr := (tr K).
  Local Notation dlt := (dlt K).

  Definition mm (n : Z) (f g : Z -> Z -> T) (i j : Z) : T := vsum K n (fun p => f i p *' g p j).

  Lemma mm_ext : forall n f f' g g' i j, (forall p, 0 <= p < n -> f i p = f' i p) -> (forall p, 0 <= p < n -> g p j = g' p j) ->
    mm n f g i j = mm n f' g' i j.
  Proof. intros n f f' g g' i j H1 H2. unfold mm. apply vsum_ext. intros p Hp. rewrite H1, H2 by auto. reflexivity. Qed.

  Lemma mm_assoc : forall n f g h i j, mm n (mm n f g) h i j = mm n f (mm n g h) i j.
  Proof.
    intros n f g h i j. unfold mm.
    rewrite (vsum_ext K n _ (fun p => vsum K n (fun q => f i q *' g q p *' h p j))) by (intros p Hp; rewrite <- (vsum_mul_r K HR); reflexivity).
    rewrite (vsum_swap K HR). apply vsum_ext. intros q Hq. rewrite <- (vsum_mul_l K HR). apply vsum_ext. intros p Hp. ring.
  Qed.

  Lemma mm_dlt_l : forall n f i j, 0 <= i < n -> mm n dlt f i j = f i j.
  Proof. intros n f i j Hi. unfold mm. apply (sum_dlt K HF n i (fun p => f p j)). auto. Qed.

  Lemma mm_dlt_r : forall n f i j, 0 <= j < n -> mm n f dlt i j = f i j.
  Proof.
    intros n f i j Hj. unfold mm. rewrite (vsum_ext K n _ (fun p => dlt j p *' f i p)).
    - apply (sum_dlt K HF n j (fun p => f i p)). auto.
    - intros p Hp. unfold PInvM.dlt. rewrite (Z.eqb_sym p j). ring.
  Qed.

  (* a right inverse of a triangle is a left inverse *)
  Lemma tri_comm : forall up n v x, (forall i, 0 <= i < n -> v i i <> 0') ->
    (forall i j, 0 <= i < n -> 0 <= j < n -> mm n (tr up v) x i j = dlt i j) ->
    forall i j, 0 <= i < n -> 0 <= j < n -> mm n x (tr up v) i j = dlt i j.
  Proof.
    intros up n v x NZ H i j Hi Hj.
    assert (Y : mm n x (tr up v) i j -' dlt i j = 0').
    { apply (kernel_0 K HF up n v (fun i => mm n x (tr up v) i j -' dlt i j) NZ); auto. intros h Hh.
      rewrite (vsum_ext K n _ (fun p => tr up v h p *' mm n x (tr up v) p j +' opp K 1' *' (tr up v h p *' dlt p j))) by (intros; ring).
      rewrite (vsum_add K HR), (vsum_mul_l K HR).
      change (mm n (tr up v) (mm n x (tr up v)) h j +' opp K 1' *' mm n (tr up v) dlt h j = 0').
      rewrite <- mm_assoc, mm_dlt_r by auto.
      rewrite (mm_ext n _ dlt _ (tr up v) h j); [|intros; apply H; auto|auto]. rewrite mm_dlt_l by auto. ring. }
    transitivity ((mm n x (tr up v) i j -' dlt i j) +' dlt i j); [ring|]. rewrite Y. ring.
  Qed.

  Lemma lu_inverse : forall n u l x,
    (forall i, 0 <= i < n -> u i i <> 0') -> (forall i, 0 <= i < n -> l i i <> 0') ->
    (forall i j, 0 <= i < n -> 0 <= j < n -> mm n (tr true u) (mm n x (tr false l)) i j = dlt i j) ->
    forall i j, 0 <= i < n -> 0 <= j < n ->
      mm n x (mm n (tr false l) (tr true u)) i j = dlt i j /\ mm n (mm n (tr false l) (tr true u)) x i j = dlt i j.
  Proof.
    intros n u l x NU NL H i j Hi Hj. split.
    - rewrite <- mm_assoc. apply (tri_comm true n u); auto.
    - rewrite mm_assoc. set (y := mm n (tr true u) x).
      assert (HY : forall i j, 0 <= i < n -> 0 <= j < n -> mm n y (tr false l) i j = dlt i j).
      { intros i0 j0 H1 H2. unfold y. rewrite mm_assoc. apply H; auto. }
      assert (TR : forall p q, tr true (fun a b => l b a) p q = tr false l q p) by (intros; reflexivity).
      pose proof (tri_comm true n (fun a b => l b a) (fun a b => y b a)) as X.
      assert (DS : forall a b, dlt a b = dlt b a) by (intros; unfold PInvM.dlt; rewrite Z.eqb_sym; reflexivity).
      rewrite DS. rewrite <- (X ltac:(auto)) with (i := j) (j := i); auto.
      + unfold mm. apply vsum_ext. intros p Hp. rewrite TR. ring.
      + intros a b Ha Hb. rewrite DS. rewrite <- (HY b a Hb Ha). unfold mm. apply vsum_ext. intros p Hp. rewrite TR. ring.
  Qed.

  (* a sum does not depend on the order of its terms *)
  Lemma vsum_reindex : forall n t s (f : Z -> T), (forall k, 0 <= k < n -> 0 <= t k < n) -> (forall k, 0 <= k < n -> 0 <= s k < n) ->
    (forall k, 0 <= k < n -> s (t k) = k) -> (forall k, 0 <= k < n -> t (s k) = k) ->
    vsum K n (fun k => f (t k)) = vsum K n f.
  Proof.
    intros n t s f Ht Hs H1 H2.
    rewrite (vsum_ext K n (fun k => f (t k)) (fun k => vsum K n (fun q => dlt (t k) q *' f q))) by
      (intros k Hk; symmetry; apply (sum_dlt K HF n (t k) f); auto).
    rewrite (vsum_swap K HR). apply vsum_ext. intros q Hq.
    rewrite (vsum_ext K n _ (fun k => dlt (s q) k *' f q)).
    - apply (sum_dlt K HF n (s q) (fun _ => f q)). auto.
    - intros k Hk. f_equal. unfold PInvM.dlt.
      destruct (Z.eqb_spec (t k) q) as [E|E]; destruct (Z.eqb_spec (s q) k) as [E'|E']; auto; exfalso.
      + apply E'. rewrite <- E. auto.
      + apply E. rewrite <- E'. auto.
  Qed.

  (* interchanges of the rows of a, undone in the columns of its inverse *)
  Lemma inverse_perm : forall n t s a b x, (forall k, 0 <= k < n -> 0 <= t k < n) -> (forall k, 0 <= k < n -> 0 <= s k < n) ->
    (forall k, 0 <= k < n -> s (t k) = k) -> (forall k, 0 <= k < n -> t (s k) = k) ->
    (forall i j, 0 <= i < n -> 0 <= j < n -> b i j = a (s i) j) ->
    (forall i j, 0 <= i < n -> 0 <= j < n -> mm n x b i j = dlt i j /\ mm n b x i j = dlt i j) ->
    forall i j, 0 <= i < n -> 0 <= j < n ->
      mm n (fun i j => x i (t j)) a i j = dlt i j /\ mm n a (fun i j => x i (t j)) i j = dlt i j.
  Proof.
    intros n t s a b x Ht Hs H1 H2 HB H i j Hi Hj. split.
    - destruct (H i j Hi Hj) as (<- & _). unfold mm. rewrite <- (vsum_reindex n t s (fun q => x i q *' b q j)); auto.
      apply vsum_ext. intros k Hk. rewrite HB, H1 by auto. reflexivity.
    - destruct (H (t i) (t j)) as (_ & X); auto. transitivity (dlt (t i) (t j)).
      + rewrite <- X. unfold mm. apply vsum_ext. intros k Hk. rewrite HB, H1 by auto. reflexivity.
      + unfold PInvM.dlt. destruct (Z.eqb_spec i j) as [->|N]; [rewrite Z.eqb_refl; reflexivity|].
        destruct (Z.eqb_spec (t i) (t j)) as [E|E]; auto. exfalso. apply N. rewrite <- (H1 i), <- (H1 j), E by auto. reflexivity.
  Qed.
End M.

(* forward and backward interchanges undo each other *)
Lemma pivot_inv : forall n ix, 0 <= n -> let P := mkpiv n ix in
  let t := pivot_map P ARMAS_PIVOT_BACKWARD n in let s := fwd n ix (Z.to_nat n) in
  (forall k, 0 <= k < n -> 0 <= t k < n) /\ (forall k, 0 <= k < n -> 0 <= s k < n) /\
  (forall k, 0 <= k < n -> s (t k) = k) /\ (forall k, 0 <= k < n -> t (s k) = k).
Proof.
  intros n ix Hn P t s.
  assert (B1 : bijective_on n t) by (apply pivot_map_bij; cbn; lia).
  assert (B2 : bijective_on n s) by (apply (pivot_map_bij P ARMAS_PIVOT_FORWARD n); cbn; lia).
  destruct B1 as (B1 & B3). destruct B2 as (B2 & _).
  assert (X : forall k, s (t k) = k) by (intros k; apply fwd_bwd_id; auto).
  repeat split; auto; try (apply B1; auto); try (apply B2; auto).
  intros k Hk. destruct (B3 k Hk) as (q & Hq & <-). rewrite X. reflexivity.
Qed.
