(* PInvM.v: inverses of triangular index functions, grown block by block. *)
From Coq Require Import ZArith Lia Bool ZifyBool Ring Field.
From Verif Require Import MNum SpecNum PSum.
Local Open Scope Z_scope.
Ltac lia := Lia.lia.

Section M.
  Context {T : Type} (K : num T).
  Hypotheses (HF : is_field K) (HE : eqb_ok K).
  Let HR : is_ring K := Field_theory.F_R HF.
  Let HR' : ring_theory (zero K) (one K) (add K) (mul K) (sub K) (opp K) eq := HR.
  Add Ring KringIM : HR'.
  Local Notation "a +' b" := (add K a b) (at level 50, left associativity).
  Local Notation "a -' b" := (sub K a b) (at level 50, left associativity).
  Local Notation "a *' b" := (mul K a b) (at level 40, left associativity).
  Local Notation "0'" := (zero K).
  Local Notation "1'" := (one K).

  Definition dlt (i j : Z) : T := if i =? j then 1' else 0'.
  Definition inT (up : bool) (i j : Z) : bool := if up then i <=? j else j <=? i.
  Definition tr (up : bool) (f : Z -> Z -> T) (i j : Z) : T := if inT up i j then f i j else 0'.

  Lemma sum_range : forall n a l f, 0 <= a -> 0 <= l -> a + l <= n ->
    (forall p, 0 <= p < n -> p < a \/ a + l <= p -> f p = 0') -> vsum K n f = vsum K l (fun q => f (a + q)).
  Proof.
    intros n a l f Ha Hl Hn H. replace n with (a + (l + (n - a - l))) at 1 by lia.
    rewrite !(vsum_split K HR) by lia. rewrite (vsum_zero K HR a); [|intros; apply H; lia].
    rewrite (vsum_zero K HR (n - a - l)); [|intros; apply H; lia]. ring.
  Qed.

  Lemma sum_dlt : forall n i f, 0 <= i < n -> vsum K n (fun p => dlt i p *' f p) = f i.
  Proof.
    intros n i f Hi. rewrite (sum_range n i 1) by (lia || (intros p Hp Hq; unfold dlt; replace (i =? p) with false by lia; ring)).
    rewrite (vsum_1 K HR). replace (i + 0) with i by lia. unfold dlt. rewrite Z.eqb_refl. ring.
  Qed.

  (* v is the inverse of u on the rows and columns from d0 to d0+nd *)
  Definition inv_on (up : bool) (n d0 nd : Z) (v u : Z -> Z -> T) : Prop :=
    forall i j, d0 <= i < d0 + nd -> d0 <= j < d0 + nd -> vsum K n (fun p => tr up v i p *' tr up u p j) = dlt i j.

  Lemma inv_step : forall (up : bool) n k b u v v', 0 <= k -> 0 <= b -> k + b <= n ->
    let d0 := if up then 0 else k + b in let nd := if up then k else n - k - b in
    inv_on up n d0 nd v u -> inv_on up n k b v' u ->
    (forall i j, d0 <= i < d0 + nd -> k <= j < k + b ->
       vsum K b (fun q => v' i (k + q) *' tr up u (k + q) j) = opp K (vsum K nd (fun q => tr up v i (d0 + q) *' u (d0 + q) j))) ->
    (forall i j, d0 <= i < d0 + nd -> d0 <= j < d0 + nd -> inT up i j = true -> v' i j = v i j) ->
    inv_on up n (if up then 0 else k) (nd + b) v' u.
  Proof.
    intros up n k b u v v' Hk Hb Hn d0 nd ID IB HC HD i j Hi Hj.
    assert (CI : d0 <= i < d0 + nd \/ k <= i < k + b) by (unfold d0, nd in *; destruct up; lia).
    assert (CJ : d0 <= j < d0 + nd \/ k <= j < k + b) by (unfold d0, nd in *; destruct up; lia).
    destruct CI as [CI|CI], CJ as [CJ|CJ].
    - rewrite <- (ID i j CI CJ). apply vsum_ext. intros p Hp. unfold tr.
      destruct (inT up p j) eqn:E2; [|ring]. destruct (inT up i p) eqn:E1; [|ring]. rewrite HD; auto.
      unfold inT, d0, nd in *. destruct up; lia.
    - assert (Hne : dlt i j = 0') by (unfold dlt; replace (i =? j) with false by (unfold d0, nd in *; destruct up; lia); reflexivity).
      rewrite Hne. specialize (HC i j CI CJ).
      rewrite (sum_range n (if up then 0 else k) (nd + b)).
      2-4: unfold nd; destruct up; lia.
      2:{ intros p Hp Ho. unfold tr at 2. replace (inT up p j) with false by (unfold inT, d0, nd in *; destruct up; lia). ring. }
      assert (XB : vsum K b (fun q => tr up v' i (k + q) *' tr up u (k + q) j) = vsum K b (fun q => v' i (k + q) *' tr up u (k + q) j)).
      { apply vsum_ext. intros q Hq. unfold tr at 1. replace (inT up i (k + q)) with true by (unfold inT, d0, nd in *; destruct up; lia). reflexivity. }
      assert (XD : vsum K nd (fun q => tr up v' i (d0 + q) *' tr up u (d0 + q) j) = vsum K nd (fun q => tr up v i (d0 + q) *' u (d0 + q) j)).
      { apply vsum_ext. intros q Hq. unfold tr. replace (inT up (d0 + q) j) with true by (unfold inT, d0, nd in *; destruct up; lia).
        destruct (inT up i (d0 + q)) eqn:E1; [|ring]. rewrite HD; auto; lia. }
      destruct up.
      + rewrite (vsum_split K HR) by (unfold nd; lia). unfold d0, nd in *.
        rewrite (vsum_ext K b (fun k0 => tr true v' i (0 + (k + k0)) *' tr true u (0 + (k + k0)) j) (fun q => tr true v' i (k + q) *' tr true u (k + q) j)) by
          (intros q Hq; replace (0 + (k + q)) with (k + q) by lia; reflexivity).
        rewrite XD, XB, HC. ring.
      + unfold d0, nd in *. replace (n - k - b + b) with (b + (n - k - b)) by lia. rewrite (vsum_split K HR) by lia.
        rewrite (vsum_ext K (n - k - b) (fun k0 => tr false v' i (k + (b + k0)) *' tr false u (k + (b + k0)) j)
           (fun q => tr false v' i (k + b + q) *' tr false u (k + b + q) j)) by
          (intros q Hq; replace (k + (b + q)) with (k + b + q) by lia; reflexivity).
        rewrite XD, XB, HC. ring.
    - unfold dlt. replace (i =? j) with false by (unfold d0, nd in *; destruct up; lia).
      apply (vsum_zero K HR). intros p Hp. unfold tr.
      destruct (inT up i p) eqn:E1; [|ring]. destruct (inT up p j) eqn:E2; [|ring]. exfalso. unfold inT, d0, nd in *; destruct up; lia.
    - apply IB; auto.
  Qed.

  (* an inverse from the left is one from the right *)
  Lemma diag_1 : forall up n u v i, 0 <= i < n -> inv_on up n 0 n v u -> v i i *' u i i = 1'.
  Proof.
    intros up n u v i Hi H. specialize (H i i ltac:(lia) ltac:(lia)). unfold dlt in H. rewrite Z.eqb_refl in H. rewrite <- H.
    rewrite (sum_range n i 1); try lia.
    - rewrite (vsum_1 K HR). replace (i + 0) with i by lia. unfold tr, inT. replace (i <=? i) with true by lia. destruct up; reflexivity.
    - intros p Hp Ho. unfold tr. destruct (inT up i p) eqn:E1; [|ring]. destruct (inT up p i) eqn:E2; [|ring]. exfalso. unfold inT in *; destruct up; lia.
  Qed.

  Lemma kernel_0 : forall (up : bool) n v (d : Z -> T), (forall i, 0 <= i < n -> v i i <> 0') ->
    (forall h, 0 <= h < n -> vsum K n (fun i => tr up v h i *' d i) = 0') -> forall h, 0 <= h < n -> d h = 0'.
  Proof.
    intros up n v d Hv H.
    assert (G : forall s, 0 <= s -> forall h, 0 <= h < n -> (if up then n - 1 - h else h) < s -> d h = 0').
    { apply (vsum_ind (fun s => forall h, 0 <= h < n -> (if up then n - 1 - h else h) < s -> d h = 0')).
      - intros h Hh Hs. exfalso. destruct up; lia.
      - intros s Hs IH h Hh Hd. specialize (H h Hh).
        rewrite (sum_range n h 1) in H; try lia.
        + rewrite (vsum_1 K HR) in H. replace (h + 0) with h in H by lia. unfold tr, inT in H. replace (h <=? h) with true in H by lia.
          assert (H' : v h h *' d h = 0') by (destruct up; exact H).
          transitivity (mul K (div K 1' (v h h)) (v h h *' d h)).
          * transitivity (mul K (mul K (div K 1' (v h h)) (v h h)) (d h)); [|ring].
            rewrite (Field_theory.Finv_l HF) by (apply Hv; lia). ring.
          * rewrite H'. ring.
        + intros p Hp Ho. unfold tr, inT. destruct (if up then h <=? p else p <=? h) eqn:E1; [|ring].
          rewrite (IH p); [ring|lia|]. destruct up; lia. }
    intros h Hh. apply (G n); try lia. destruct up; lia.
  Qed.

  Lemma inv_right : forall up n u v, 0 <= n -> inv_on up n 0 n v u -> inv_on up n 0 n u v.
  Proof.
    intros up n u v Hn H i j Hi Hj.
    assert (V0 : forall q, 0 <= q < n -> v q q <> 0').
    { intros q Hq E. pose proof (diag_1 up n u v q Hq H) as X. rewrite E in X. apply (Field_theory.F_1_neq_0 HF). rewrite <- X. ring. }
    pose proof (kernel_0 up n v (fun i => vsum K n (fun p => tr up u i p *' tr up v p j) -' dlt i j) V0) as X.
    assert (Y : vsum K n (fun p => tr up u i p *' tr up v p j) -' dlt i j = 0').
    { apply X; [|lia]. intros h Hh.
      rewrite (vsum_ext K n _ (fun i => vsum K n (fun p => tr up v h i *' tr up u i p *' tr up v p j) +' opp K 1' *' (tr up v h i *' dlt i j))).
      2:{ intros q Hq. rewrite (vsum_ext K n (fun p => tr up v h q *' tr up u q p *' tr up v p j) (fun p => tr up v h q *' (tr up u q p *' tr up v p j))) by (intros; ring).
          rewrite (vsum_mul_l K HR). ring. }
      rewrite (vsum_add K HR), (vsum_mul_l K HR), (vsum_swap K HR).
      rewrite (vsum_ext K n _ (fun p => dlt h p *' tr up v p j)).
      2:{ intros p Hp. rewrite (vsum_mul_r K HR). rewrite (H h p) by lia. reflexivity. }
      rewrite (sum_dlt n h) by lia.
      rewrite (vsum_ext K n (fun k => tr up v h k *' dlt k j) (fun k => dlt j k *' tr up v h k)).
      2:{ intros q Hq. unfold dlt. rewrite (Z.eqb_sym q j). ring. }
      rewrite (sum_dlt n j) by lia. ring. }
    transitivity (vsum K n (fun p => tr up u i p *' tr up v p j) -' dlt i j +' dlt i j); [ring|]. rewrite Y. ring.
  Qed.
End M.
