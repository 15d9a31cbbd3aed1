(* PInvSpdM.v: one block step of the inverse of L*L^T. *)
From Coq Require Import ZArith Lia Bool ZifyBool Ring Field.
From Verif Require Import MNum SpecNum PSum PInvM.
Local Open Scope Z_scope.
Ltac lia := Lia.lia.

Section M.
  Context {T : Type} (K : num T).
  Hypotheses (HF : is_field K).
  Let HR : is_ring K := Field_theory.F_R HF.
  Let HR' : ring_theory (zero K) (one K) (add K) (mul K) (sub K) (opp K) eq := HR.
  Add Ring KringSM : HR'.
  Local Notation "a +' b" := (add K a b) (at level 50, left associativity).
  Local Notation "a -' b" := (sub K a b) (at level 50, left associativity).
  Local Notation "a *' b" := (mul K a b) (at level 40, left associativity).
  Local Notation "0'" := (zero K).
  Local Notation "1'" := (one K).
  Local Notation dlt := (dlt K).

  (* row i of X times L, the first b and the last r rows apart *)
  Definition xlb (b r : Z) (x l : Z -> Z -> T) (i j : Z) : T :=
    vsum K b (fun q => x i q *' l q j) +' vsum K r (fun p => x i (b + p) *' l (b + p) j).

  Lemma spd_step : forall b r (x l : Z -> Z -> T), 0 <= b -> 0 <= r ->
    (forall i j, x i j = x j i) -> (forall i j, i < j -> l i j = 0') ->
    (forall i j, 0 <= i < r -> 0 <= j < r -> vsum K r (fun p => x (b + i) (b + p) *' vsum K r (fun q => l (b + p) (b + q) *' l (b + j) (b + q))) = dlt i j) ->
    (forall i j, 0 <= i < r -> 0 <= j < b -> xlb b r x l (b + i) j = 0') ->
    (forall i j, 0 <= i < b -> 0 <= j < b -> vsum K b (fun q => xlb b r x l i q *' l j q) = dlt i j) ->
    forall i j, 0 <= i < b + r -> 0 <= j < b + r -> vsum K (b + r) (fun p => x i p *' vsum K (b + r) (fun q => l p q *' l j q)) = dlt i j.
  Proof.
    intros b r x l Hb Hr Sx Lo J H2 H1 i j Hi Hj.
    set (G := fun p j => vsum K r (fun q => l (b + p) (b + q) *' l (b + j) (b + q))) in *.
    assert (E0 : vsum K (b + r) (fun p => x i p *' vsum K (b + r) (fun q => l p q *' l j q)) =
      vsum K b (fun q => xlb b r x l i q *' l j q) +' vsum K r (fun s => vsum K r (fun p => x i (b + p) *' l (b + p) (b + s)) *' l j (b + s))).
    { rewrite (vsum_ext K (b + r) _ (fun p => vsum K (b + r) (fun q => x i p *' l p q *' l j q))).
      2:{ intros p Hp. rewrite <- (vsum_mul_l K HR). apply vsum_ext. intros q Hq. ring. }
      rewrite (vsum_swap K HR). rewrite (vsum_split K HR) by auto. f_equal.
      - apply vsum_ext. intros q Hq. rewrite (vsum_mul_r K HR). unfold xlb. rewrite (vsum_split K HR) by auto. reflexivity.
      - apply vsum_ext. intros s Hs. rewrite (vsum_mul_r K HR). f_equal. rewrite (vsum_split K HR) by auto.
        rewrite (vsum_zero K HR b) by (intros p Hp; rewrite (Lo p (b + s)) by lia; ring). ring. }
    rewrite E0. clear E0.
    assert (E1 : forall j', j = b + j' -> vsum K r (fun s => vsum K r (fun p => x i (b + p) *' l (b + p) (b + s)) *' l j (b + s)) = vsum K r (fun p => x i (b + p) *' G p j')).
    { intros j' ->. rewrite (vsum_ext K r _ (fun s => vsum K r (fun p => x i (b + p) *' (l (b + p) (b + s) *' l (b + j') (b + s))))).
      2:{ intros s Hs. rewrite <- (vsum_mul_r K HR). apply vsum_ext. intros p Hp. ring. }
      rewrite (vsum_swap K HR). apply vsum_ext. intros p Hp. rewrite (vsum_mul_l K HR). reflexivity. }
    assert (E2 : j < b -> vsum K r (fun s => vsum K r (fun p => x i (b + p) *' l (b + p) (b + s)) *' l j (b + s)) = 0').
    { intros Hjb. apply (vsum_zero K HR). intros s Hs. rewrite (Lo j (b + s)) by lia. ring. }
    destruct (Z_lt_ge_dec i b) as [Ci|Ci]; destruct (Z_lt_ge_dec j b) as [Cj|Cj].
    - rewrite E2, H1 by lia. ring.
    - rewrite (E1 (j - b)) by lia.
      assert (X : forall p, 0 <= p < r -> x i (b + p) = opp K (vsum K r (fun p' => x (b + p) (b + p') *' vsum K b (fun q => l (b + p') q *' xlb b r x l i q)))).
      { intros p Hp.
        assert (Y : vsum K b (fun q => xlb b r x l (b + p) q *' xlb b r x l i q) = 0').
        { apply (vsum_zero K HR). intros q Hq. rewrite H2 by lia. ring. }
        rewrite (vsum_ext K b _ (fun q => vsum K b (fun s => x (b + p) s *' (xlb b r x l i q *' l s q)) +' vsum K r (fun p' => x (b + p) (b + p') *' (l (b + p') q *' xlb b r x l i q)))) in Y.
        2:{ intros q Hq. unfold xlb at 1.
            transitivity (vsum K b (fun s => x (b + p) s *' l s q) *' xlb b r x l i q +' vsum K r (fun p' => x (b + p) (b + p') *' l (b + p') q) *' xlb b r x l i q); [ring|].
            rewrite <- !(vsum_mul_r K HR). f_equal; apply vsum_ext; intros s Hs; ring. }
        rewrite (vsum_add K HR) in Y. rewrite (vsum_swap K HR b b), (vsum_swap K HR b r) in Y.
        rewrite (vsum_ext K b _ (fun s => dlt i s *' x (b + p) s)) in Y.
        2:{ intros s Hs. rewrite (vsum_mul_l K HR). rewrite H1 by lia. ring. }
        rewrite (sum_dlt K HF) in Y by lia.
        rewrite (vsum_ext K r _ (fun p' => x (b + p) (b + p') *' vsum K b (fun q => l (b + p') q *' xlb b r x l i q))) in Y by (intros s Hs; rewrite (vsum_mul_l K HR); reflexivity).
        rewrite (Sx i (b + p)). set (u := vsum K r (fun p' => x (b + p) (b + p') *' vsum K b (fun q => l (b + p') q *' xlb b r x l i q))) in *.
        transitivity ((x (b + p) i +' u) -' u); [ring|]. rewrite Y. ring. }
      rewrite (vsum_ext K r (fun p => x i (b + p) *' G p (j - b)) (fun p => vsum K r (fun p' => opp K 1' *' (x (b + p) (b + p') *' vsum K b (fun q => l (b + p') q *' xlb b r x l i q) *' G p (j - b))))).
      2:{ intros p Hp. rewrite X by auto. rewrite (vsum_mul_l K HR), (vsum_mul_r K HR). ring. }
      rewrite (vsum_swap K HR).
      rewrite (vsum_ext K r _ (fun p' => dlt (j - b) p' *' (opp K 1' *' vsum K b (fun q => l (b + p') q *' xlb b r x l i q)))).
      2:{ intros p' Hp'. unfold PInvM.dlt. rewrite (Z.eqb_sym (j - b) p'). change (if p' =? j - b then 1' else 0') with (dlt p' (j - b)). rewrite <- (J p' (j - b)) by lia.
          rewrite <- (vsum_mul_r K HR). apply vsum_ext. intros p Hp. rewrite (Sx (b + p) (b + p')). fold (G p (j - b)). ring. }
      rewrite (sum_dlt K HF) by lia. replace (b + (j - b)) with j by lia.
      rewrite (vsum_ext K b (fun q => l j q *' xlb b r x l i q) (fun q => xlb b r x l i q *' l j q)) by (intros; ring).
      unfold PInvM.dlt. replace (i =? j) with false by lia. ring.
    - rewrite E2 by lia. rewrite (vsum_zero K HR).
      + unfold PInvM.dlt. replace (i =? j) with false by lia. ring.
      + intros q Hq. replace i with (b + (i - b)) by lia. rewrite H2 by lia. ring.
    - rewrite (E1 (j - b)) by lia. rewrite (vsum_zero K HR).
      + rewrite (vsum_ext K r _ (fun p => x (b + (i - b)) (b + p) *' G p (j - b))) by (intros; replace (b + (i - b)) with i by lia; reflexivity). unfold G. rewrite J by lia.
        unfold PInvM.dlt. replace (i - b =? j - b) with (i =? j) by lia. ring.
      + intros q Hq. replace i with (b + (i - b)) by lia. rewrite H2 by lia. ring.
  Qed.

  (* one block step in terms of what the kernels compute: x21, M = l21*l11^-1 and N, the inverse of l11*l11^T *)
  Lemma spd_blk : forall b r (x l M N : Z -> Z -> T), 0 <= b -> 0 <= r ->
    (forall i j, x i j = x j i) -> (forall i j, i < j -> l i j = 0') -> (forall i, 0 <= i < b -> l i i <> 0') ->
    (forall i j, 0 <= i < r -> 0 <= j < b -> vsum K b (fun q => x (b + i) q *' l q j) = opp K (vsum K r (fun p => x (b + i) (b + p) *' l (b + p) j))) ->
    (forall i j, 0 <= i < r -> 0 <= j < b -> vsum K b (fun q => M i q *' l q j) = l (b + i) j) ->
    (forall i j, N i j = N j i) ->
    (forall i j, 0 <= i < b -> 0 <= j < b -> vsum K b (fun q => N i q *' vsum K b (fun s => l q s *' l j s)) = dlt i j) ->
    (forall i j, 0 <= i < b -> 0 <= j <= i -> x i j = N i j -' vsum K r (fun p => x (b + p) i *' M p j)) ->
    (forall i j, 0 <= i < r -> 0 <= j < b -> xlb b r x l (b + i) j = 0') /\
    (forall i j, 0 <= i < b -> 0 <= j < b -> vsum K b (fun q => xlb b r x l i q *' l j q) = dlt i j).
  Proof.
    intros b r x l M N Hb Hr Sx Lo NZ H3 H4 SN HN H6. split.
    { intros i j Hi Hj. unfold xlb. rewrite H3 by auto. ring. }
    (* x21 = - x22*M *)
    assert (X : forall p q, 0 <= p < r -> 0 <= q < b -> x (b + p) q = opp K (vsum K r (fun p' => x (b + p) (b + p') *' M p' q))).
    { intros p q Hp Hq.
      assert (Y : x (b + p) q +' vsum K r (fun p' => x (b + p) (b + p') *' M p' q) = 0').
      { apply (kernel_0 K HF true b (fun i j => l j i) (fun q => x (b + p) q +' vsum K r (fun p' => x (b + p) (b + p') *' M p' q))); auto. intros h Hh.
        rewrite (vsum_ext K b _ (fun s => x (b + p) s *' l s h +' vsum K r (fun p' => x (b + p) (b + p') *' (M p' s *' l s h)))).
        2:{ intros s Hs. replace (tr K true (fun i j => l j i) h s) with (l s h).
            - transitivity (x (b + p) s *' l s h +' vsum K r (fun p' => x (b + p) (b + p') *' M p' s) *' l s h); [ring|]. f_equal.
              rewrite <- (vsum_mul_r K HR). apply vsum_ext. intros t Ht. ring.
            - unfold PInvM.tr, inT. destruct (h <=? s) eqn:C; [reflexivity|]. apply Lo. lia. }
        rewrite (vsum_add K HR), H3 by auto. rewrite (vsum_swap K HR).
        rewrite (vsum_ext K r (fun j => vsum K b _) (fun p' => x (b + p) (b + p') *' l (b + p') h)); [ring|].
        intros t Ht. rewrite (vsum_mul_l K HR), H4 by auto. reflexivity. }
      set (u := vsum K r _) in *. transitivity ((x (b + p) q +' u) -' u); [ring|]. rewrite Y. ring. }
    set (P := fun i q => vsum K r (fun p => x (b + p) i *' M p q)).
    assert (SP : forall i q, 0 <= i < b -> 0 <= q < b -> P i q = opp K (vsum K r (fun p => vsum K r (fun p' => x (b + p) (b + p') *' (M p' i *' M p q))))).
    { intros i q Hi Hq. unfold P. transitivity (vsum K r (fun p => opp K 1' *' vsum K r (fun p' => x (b + p) (b + p') *' (M p' i *' M p q)))).
      - apply vsum_ext. intros p Hp. rewrite X by auto.
        rewrite (vsum_ext K r (fun p' => x (b + p) (b + p') *' (M p' i *' M p q)) (fun p' => x (b + p) (b + p') *' M p' i *' M p q)) by (intros; ring).
        rewrite (vsum_mul_r K HR). ring.
      - rewrite (vsum_mul_l K HR). ring. }
    assert (PS : forall i q, 0 <= i < b -> 0 <= q < b -> P i q = P q i).
    { intros i q Hi Hq. rewrite (SP i q), (SP q i) by auto. f_equal. rewrite (vsum_swap K HR). apply vsum_ext. intros p Hp. apply vsum_ext. intros p' Hp'.
      rewrite (Sx (b + p') (b + p)). ring. }
    assert (XN : forall i q, 0 <= i < b -> 0 <= q < b -> x i q = N i q -' P i q).
    { intros i q Hi Hq. destruct (Z_le_gt_dec q i) as [C|C]; [apply H6; lia|]. rewrite (Sx i q), (SN i q), (PS i q) by auto. apply H6; lia. }
    assert (XL : forall i s, 0 <= i < b -> 0 <= s < b -> xlb b r x l i s = vsum K b (fun q => N i q *' l q s)).
    { intros i s Hi Hs. unfold xlb.
      rewrite (vsum_ext K b _ (fun q => N i q *' l q s +' opp K 1' *' (P i q *' l q s))) by (intros q Hq; rewrite XN by auto; ring).
      rewrite (vsum_add K HR), (vsum_mul_l K HR).
      assert (Y : vsum K b (fun q => P i q *' l q s) = vsum K r (fun p => x i (b + p) *' l (b + p) s)).
      { unfold P. rewrite (vsum_ext K b _ (fun q => vsum K r (fun p => x (b + p) i *' (M p q *' l q s)))).
        2:{ intros q Hq. rewrite <- (vsum_mul_r K HR). apply vsum_ext. intros p Hp. ring. }
        rewrite (vsum_swap K HR). apply vsum_ext. intros p Hp. rewrite (vsum_mul_l K HR), H4 by auto. rewrite (Sx i (b + p)). reflexivity. }
      rewrite Y. ring. }
    intros i j Hi Hj. rewrite <- (HN i j Hi Hj).
    rewrite (vsum_ext K b _ (fun s => vsum K b (fun q => N i q *' (l q s *' l j s)))).
    2:{ intros s Hs. rewrite XL by auto. rewrite <- (vsum_mul_r K HR). apply vsum_ext. intros q Hq. ring. }
    rewrite (vsum_swap K HR). apply vsum_ext. intros q Hq. rewrite (vsum_mul_l K HR). reflexivity.
  Qed.
End M.
