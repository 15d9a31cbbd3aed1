(* PCholM.v: the algebra of the Cholesky factorization. *)
From Coq Require Import ZArith Lia Bool ZifyBool Ring Field.
From Verif Require Import Mem MView SpecView PFrame PTrsm MNum SpecNum PSum PBlas1 PNorm PTrm SpecChol.
Local Open Scope Z_scope.

Ltac lia := nobool; zlia.

Section M.
  Context {T : Type} (K : num T).
  Hypotheses (HF : is_field K) (HO : is_ordered K).
  Let HR : is_ring K := Field_theory.F_R HF.
  Let HR' : ring_theory (zero K) (one K) (add K) (mul K) (sub K) (opp K) eq := HR.
  Add Ring KringCM : HR'.
  Local Notation "a +' b" := (add K a b) (at level 50, left associativity).
  Local Notation "a -' b" := (sub K a b) (at level 50, left associativity).
  Local Notation "a *' b" := (mul K a b) (at level 40, left associativity).
  Local Notation "0'" := (zero K).
  Local Notation pos x := (ltb K (zero K) x = true).

  (* the symmetric matrix of which a gives the lower triangle *)
  Definition sy (a : Z -> Z -> T) (i j : Z) : T := if j <=? i then a i j else a j i.

  (* the first k columns of f are those of the factor of a and the rest is what is left of a *)
  Definition schur n k (a f : Z -> Z -> T) : Prop :=
    (forall i j, 0 <= j <= i -> i < n ->
       a i j = vsum K (Z.min k (j + 1)) (fun p => f i p *' f j p) +' (if j <? k then 0' else f i j)) /\
    (forall j, 0 <= j < k -> j < n -> pos (f j j)).

  Definition low (f : Z -> Z -> T) i p : T := if p <=? i then f i p else 0'.

  Lemma schur_sy : forall n k a f, 0 <= k -> schur n k a f -> forall i j, 0 <= i < n -> 0 <= j < n ->
    sy a i j = vsum K k (fun p => low f i p *' low f j p) +' (if (k <=? i) && (k <=? j) then sy f i j else 0').
  Proof.
    intros n k a f Hk (H & _).
    assert (G : forall i j, 0 <= j <= i -> i < n ->
      a i j = vsum K k (fun p => low f i p *' low f j p) +' (if (k <=? i) && (k <=? j) then f i j else 0')).
    { intros i j Hij Hi. rewrite H by auto. f_equal.
      - destruct (Z_le_dec k (j + 1)) as [Hl|Hl].
        + rewrite Z.min_l by lia. apply vsum_ext. intros p Hp. unfold low.
          replace (p <=? i) with true by Lia.lia. replace (p <=? j) with true by Lia.lia. reflexivity.
        + rewrite Z.min_r by lia. replace k with ((j + 1) + (k - (j + 1))) by lia. rewrite (vsum_split K HR (j + 1) (k - (j + 1))) by lia.
          rewrite (vsum_zero K HR (k - (j + 1))).
          * transitivity (vsum K (j + 1) (fun p => low f i p *' low f j p)); [|ring].
            apply vsum_ext. intros p Hp. unfold low. replace (p <=? i) with true by Lia.lia. replace (p <=? j) with true by Lia.lia. reflexivity.
          * intros p Hp. unfold low. replace (j + 1 + p <=? j) with false by Lia.lia. ring.
      - destruct (j <? k) eqn:E1; replace (k <=? j) with (negb (j <? k)) by Lia.lia; rewrite E1; cbn [negb].
        + rewrite andb_false_r. reflexivity.
        + replace (k <=? i) with true by Lia.lia. reflexivity. }
    intros i j Hi Hj. unfold sy. destruct (j <=? i) eqn:E.
    - apply G; lia.
    - rewrite (G j i) by lia. rewrite andb_comm. f_equal. apply vsum_ext. intros; ring.
  Qed.

  (* a vector given on k.. can be continued so that it is orthogonal to the first k columns *)
  Lemma orth_ex : forall n k f (y : Z -> T), 0 <= k <= n -> (forall j, 0 <= j < k -> pos (f j j)) ->
    exists x, (forall i, k <= i -> x i = y i) /\ (forall p, 0 <= p < k -> vsum K n (fun i => x i *' low f i p) = 0').
  Proof.
    intros n k f y Hk Hd.
    assert (G : forall t, 0 <= t -> t <= k -> exists x, (forall i, k <= i -> x i = y i) /\
      (forall p, k - t <= p < k -> vsum K n (fun i => x i *' low f i p) = 0')).
    { apply (vsum_ind (fun t => t <= k -> exists x, (forall i, k <= i -> x i = y i) /\
        (forall p, k - t <= p < k -> vsum K n (fun i => x i *' low f i p) = 0'))).
      - intros _. exists y. split; [auto|]. intros p Hp. exfalso. lia.
      - intros t Ht IH Htk. destruct (IH ltac:(lia)) as (x & X1 & X2). clear IH.
        set (q := k - (t + 1)) in *. assert (Hq : 0 <= q < k) by lia. assert (Eq : k - t = q + 1) by lia. rewrite Eq in X2. clearbody q.
        set (s := vsum K (n - (q + 1)) (fun i => x (q + 1 + i) *' f (q + 1 + i) q)).
        exists (fun i => if i =? q then opp K (div K s (f q q)) else if i <? q then 0' else x i). split.
        + intros i Hi. replace (i =? q) with false by Lia.lia. replace (i <? q) with false by Lia.lia. auto.
        + intros p Hp. destruct (Z.eq_dec p q) as [->|Hne].
          * replace n with (q + (1 + (n - (q + 1)))) by lia. rewrite !(vsum_split K HR) by lia. rewrite (vsum_1 K HR).
            rewrite (vsum_zero K HR q).
            2:{ intros i Hi. unfold low. replace (q <=? i) with false by Lia.lia. ring. }
            replace (vsum K (n - (q + 1)) _) with s.
            2:{ apply vsum_ext. intros i Hi. cbv beta. rewrite Z.add_assoc. unfold low. replace (q + 1 + i =? q) with false by Lia.lia.
                replace (q + 1 + i <? q) with false by Lia.lia. replace (q <=? q + 1 + i) with true by Lia.lia. reflexivity. }
            rewrite Z.add_0_r, Z.eqb_refl. unfold low. rewrite Z.leb_refl.
            assert (Hn : f q q <> 0') by (apply (o_ne K HO); apply Hd; lia).
            transitivity (s -' (f q q *' div K s (f q q))); [ring|]. rewrite (div_mul K HR HF) by auto. ring.
          * rewrite <- (X2 p) by lia. apply vsum_ext. intros i Hi. unfold low.
            destruct (i =? q) eqn:E1; [replace (p <=? i) with false by Lia.lia; ring|].
            destruct (i <? q) eqn:E2; [replace (p <=? i) with false by Lia.lia; ring|reflexivity]. }
    destruct (G k) as (x & X1 & X2); try lia. exists x. split; auto. intros p Hp. apply X2. lia.
  Qed.

  (* the quadratic form in terms of the columns *)
  Lemma quad_cols : forall n k (F : Z -> Z -> T) (s r : Z -> Z -> T) x, 0 <= k ->
    (forall i j, 0 <= i < n -> 0 <= j < n -> s i j = vsum K k (fun p => F i p *' F j p) +' r i j) ->
    quad K n s x = vsum K k (fun p => vsum K n (fun i => x i *' F i p) *' vsum K n (fun i => x i *' F i p)) +' quad K n r x.
  Proof.
    intros n k F s r x Hk H. unfold quad.
    rewrite (vsum_ext K n _ (fun i => vsum K n (fun j => vsum K k (fun p => (x i *' F i p) *' (x j *' F j p))) +'
      vsum K n (fun j => x i *' x j *' r i j))).
    2:{ intros i Hi. rewrite <- (vsum_add K HR). apply vsum_ext. intros j Hj. rewrite H by auto.
        rewrite (vsum_ext K k (fun p => (x i *' F i p) *' (x j *' F j p)) (fun p => (x i *' x j) *' (F i p *' F j p))) by (intros; ring).
        rewrite (vsum_mul_l K HR). ring. }
    rewrite (vsum_add K HR). f_equal.
    rewrite (vsum_ext K n _ (fun i => vsum K k (fun p => vsum K n (fun j => (x i *' F i p) *' (x j *' F j p)))))
      by (intros i Hi; apply (vsum_swap K HR)).
    rewrite (vsum_swap K HR). apply vsum_ext. intros p Hp.
    rewrite (vsum_ext K n _ (fun i => (x i *' F i p) *' vsum K n (fun j => x j *' F j p))) by (intros i Hi; apply (vsum_mul_l K HR)).
    apply (vsum_mul_r K HR).
  Qed.

  (* a vector on which the rest is not positive shows that a is not *)
  Lemma extend : forall n k a f (y : Z -> T), 0 <= k <= n -> schur n k a f ->
    exists x, (forall i, k <= i -> x i = y i) /\
      quad K n (sy a) x = vsum K (n - k) (fun i => vsum K (n - k) (fun j => (y (k + i) *' y (k + j)) *' sy f (k + i) (k + j))).
  Proof.
    intros n k a f y Hk HS. destruct (orth_ex n k f y Hk) as (x & X1 & X2); [intros j Hj; apply HS; lia|].
    exists x. split; [exact X1|].
    rewrite (quad_cols n k (low f) (sy a) (fun i j => if (k <=? i) && (k <=? j) then sy f i j else 0') x) by
      (try lia; intros i j Hi Hj; apply (schur_sy n); auto; lia).
    rewrite (vsum_zero K HR k).
    2:{ intros p Hp. rewrite X2 by auto. ring. }
    transitivity (quad K n (fun i j => if (k <=? i) && (k <=? j) then sy f i j else 0') x); [ring|].
    unfold quad. replace n with (k + (n - k)) at 1 by lia. rewrite (vsum_split K HR) by lia.
    rewrite (vsum_zero K HR k).
    2:{ intros i Hi. apply (vsum_zero K HR). intros j Hj. replace (k <=? i) with false by Lia.lia. cbn [andb]. ring. }
    transitivity (vsum K (n - k) (fun i => vsum K n (fun j => x (k + i) *' x j *' (if (k <=? k + i) && (k <=? j) then sy f (k + i) j else 0')))); [ring|].
    apply vsum_ext. intros i Hi. replace n with (k + (n - k)) at 1 by lia. rewrite (vsum_split K HR) by lia.
    rewrite (vsum_zero K HR k).
    2:{ intros j Hj. replace (k <=? j) with false by Lia.lia. rewrite andb_false_r. ring. }
    transitivity (vsum K (n - k) (fun j => x (k + i) *' x (k + j) *' (if (k <=? k + i) && (k <=? k + j) then sy f (k + i) (k + j) else 0'))); [ring|].
    apply vsum_ext. intros j Hj. replace (k <=? k + i) with true by Lia.lia. replace (k <=? k + j) with true by Lia.lia. cbn [andb].
    rewrite !X1 by lia. reflexivity.
  Qed.

  Lemma bad_pivot_npd : forall n k a f, 0 <= k < n -> schur n k a f -> ltb K 0' (f k k) = false -> ~ pos_def K n (sy a).
  Proof.
    intros n k a f Hk HS Hb HP. destruct (extend n k a f (fun i => if i =? k then one K else 0') ltac:(lia) HS) as (x & X1 & X2).
    specialize (HP x). rewrite X2 in HP. rewrite (vsum_one K HR (n - k) 0) in HP; [|lia|].
    2:{ intros i Hi Hne. apply (vsum_zero K HR). intros j Hj. replace (k + i =? k) with false by Lia.lia. ring. }
    rewrite (vsum_one K HR (n - k) 0) in HP; [|lia|].
    2:{ intros j Hj Hne. replace (k + j =? k) with false by Lia.lia. ring. }
    rewrite !Z.add_0_r, Z.eqb_refl in HP. unfold sy in HP. rewrite Z.leb_refl in HP.
    replace (one K *' one K *' f k k) with (f k k) in HP by ring. rewrite HP in Hb; [discriminate|].
    exists k. split; [lia|]. rewrite X1 by lia. rewrite Z.eqb_refl. apply (F_1_neq_0 HF).
  Qed.

  (* a block on the diagonal of what is left *)
  Lemma block_npd : forall n k l a f, 0 <= k -> 0 <= l -> k + l <= n -> schur n k a f ->
    ~ pos_def K l (sy (fun i j => f (k + i) (k + j))) -> ~ pos_def K n (sy a).
  Proof.
    intros n k l a f H1 H2 H3 HS Hb HP. apply Hb. intros y (i0 & Hi0 & Hy).
    destruct (extend n k a f (fun i => if (i - k) <? l then y (i - k) else 0') ltac:(lia) HS) as (x & X1 & X2).
    specialize (HP x). rewrite X2 in HP.
    replace (quad K l _ y) with (vsum K (n - k) (fun i => vsum K (n - k) (fun j =>
      ((if k + i - k <? l then y (k + i - k) else 0') *' (if k + j - k <? l then y (k + j - k) else 0')) *' sy f (k + i) (k + j)))).
    - apply HP. exists (k + i0). split; [lia|]. rewrite X1 by lia. replace (k + i0 - k) with i0 by lia.
      replace (i0 <? l) with true by Lia.lia. exact Hy.
    - unfold quad. replace (n - k) with (l + (n - k - l)) by lia. rewrite (vsum_split K HR) by lia.
      rewrite (vsum_zero K HR (n - k - l)).
      2:{ intros i Hi. apply (vsum_zero K HR). intros j Hj. replace (k + (l + i) - k <? l) with false by Lia.lia. ring. }
      match goal with |- ?X +' 0' = _ => transitivity X; [ring|] end.
      apply vsum_ext. intros i Hi. rewrite (vsum_split K HR) by lia.
      rewrite (vsum_zero K HR (n - k - l)).
      2:{ intros j Hj. replace (k + (l + j) - k <? l) with false by Lia.lia. ring. }
      match goal with |- ?X +' 0' = _ => transitivity X; [ring|] end.
      apply vsum_ext. intros j Hj. replace (k + i - k) with i by lia. replace (k + j - k) with j by lia.
      replace (i <? l) with true by Lia.lia. replace (j <? l) with true by Lia.lia. f_equal. unfold sy.
      destruct (j <=? i) eqn:EE; [replace (k + j <=? k + i) with true by Lia.lia|replace (k + j <=? k + i) with false by Lia.lia]; reflexivity.
  Qed.

  (* a product of a triangle with positive diagonal is positive definite *)
  Lemma last_nz : forall n (x : Z -> T), eqb_ok K -> (exists i, 0 <= i < n /\ x i <> 0') ->
    exists p, 0 <= p < n /\ x p <> 0' /\ forall i, p < i < n -> x i = 0'.
  Proof.
    intros n x HE (i0 & Hi0 & Hx). assert (Hn : 0 <= n) by lia. revert i0 Hi0 Hx.
    apply (vsum_ind (fun n => forall i0, 0 <= i0 < n -> x i0 <> 0' -> exists p, 0 <= p < n /\ x p <> 0' /\ forall i, p < i < n -> x i = 0')); auto.
    - intros i0 Hi0. exfalso. lia.
    - intros t Ht IH i0 Hi0 Hx. destruct (eqb K (x t) 0') eqn:Et.
      + apply HE in Et. assert (i0 <> t) by (intros ->; auto). destruct (IH i0 ltac:(lia) Hx) as (p & P1 & P2 & P3).
        exists p. split; [lia|]. split; [auto|]. intros i Hi. destruct (Z.eq_dec i t) as [->|]; auto. apply P3. lia.
      + exists t. split; [lia|]. split; [|intros i Hi; exfalso; lia]. intros E. apply HE in E. congruence.
  Qed.

  Lemma vsum_pos : forall n f p, 0 <= p < n -> (forall k, 0 <= k < n -> ltb K (f k) 0' = false) -> pos (f p) -> pos (vsum K n f).
  Proof.
    intros n f p Hp Hn H. replace n with (p + (1 + (n - (p + 1)))) by lia. rewrite !(vsum_split K HR) by lia. rewrite (vsum_1 K HR), Z.add_0_r.
    match goal with |- ltb K 0' (?a +' (?b +' ?c)) = true => replace (a +' (b +' c)) with (b +' (a +' c)) by ring end.
    apply (o_add_pos K HF HO); auto. apply (o_add_nn K HF HO); apply (vsum_nn K HF HO); intros k Hk; apply Hn; lia.
  Qed.

  Lemma schur_pd : forall n a f, eqb_ok K -> 0 <= n -> schur n n a f -> pos_def K n (sy a).
  Proof.
    intros n a f HE Hn HS x Hx. destruct (last_nz n x HE Hx) as (p & P1 & P2 & P3).
    rewrite (quad_cols n n (low f) (sy a) (fun i j => 0') x); auto.
    2:{ intros i j Hi Hj. rewrite (schur_sy n n a f) by auto. replace ((n <=? i) && (n <=? j)) with false by Lia.lia. reflexivity. }
    replace (quad K n (fun _ _ => 0') x) with 0'.
    2:{ symmetry. unfold quad. apply (vsum_zero K HR). intros i Hi. apply (vsum_zero K HR). intros j Hj. ring. }
    match goal with |- ltb K 0' (?X +' 0') = true => replace (X +' 0') with X by ring end.
    apply (vsum_pos n _ p); auto.
    - intros k Hk. apply (o_sq_nn K HF HO).
    - apply (o_sq K HF HO). rewrite (vsum_one K HR n p); auto.
      + unfold low. rewrite Z.leb_refl. intros E.
        assert (Hd : pos (f p p)) by (apply HS; lia). apply P2.
        apply (o_ne K HO) in Hd. rewrite <- (div_mul K HR HF (x p) (f p p)) by auto.
        transitivity (div K (one K) (f p p) *' (x p *' f p p)); [|rewrite E; ring].
        rewrite (Fdiv_def HF). transitivity (x p *' (f p p *' div K (one K) (f p p))); ring.
      + intros i Hi Hne. unfold low. destruct (p <=? i) eqn:E1; [rewrite P3 by Lia.lia|]; ring.
  Qed.

  (* the factor is unique *)
  Lemma schur_unique : forall n a f g, eqb_ok K -> schur n n a f -> schur n n a g -> forall i j, 0 <= j <= i -> i < n -> f i j = g i j.
  Proof.
    intros n a f g HE (F1 & F2) (G1 & G2).
    assert (X : forall j, 0 <= j -> forall q, 0 <= q < j -> forall i, q <= i < n -> f i q = g i q).
    { apply (vsum_ind (fun j => forall q, 0 <= q < j -> forall i, q <= i < n -> f i q = g i q)); [intros; exfalso; lia|].
      intros j Hj IH q Hq. destruct (Z.eq_dec q j) as [->|]; [|apply IH; lia].
      assert (S : forall i, j <= i < n -> f i j *' f j j = g i j *' g j j).
      { intros i Hi. pose proof (F1 i j ltac:(lia) ltac:(lia)) as E1. rewrite (G1 i j) in E1 by lia.
        rewrite Z.min_r in E1 by lia. replace (j <? n) with true in E1 by Lia.lia. rewrite !vsum_S in E1 by lia.
        rewrite (vsum_ext K j _ (fun p => f i p *' f j p)) in E1.
        2:{ intros p Hp. rewrite !IH by lia. reflexivity. }
        set (s := vsum K j _) in *. clearbody s.
        transitivity ((s +' f i j *' f j j +' 0') -' s); [ring|]. rewrite <- E1. ring. }
      intros i Hi. assert (Hd : f j j = g j j).
      { specialize (S j ltac:(lia)). assert (P1 : pos (f j j)) by (apply F2; lia). assert (P2 : pos (g j j)) by (apply G2; lia).
        assert (Z0 : (f j j -' g j j) *' (f j j +' g j j) = 0') by (transitivity (f j j *' f j j -' g j j *' g j j); [ring|rewrite S; ring]).
        assert (P3 : f j j +' g j j <> 0') by (apply (o_ne K HO), (o_add_pos K HF HO); auto; apply (o_nlt K HO); auto).
        set (u := f j j) in *. set (v := g j j) in *. clearbody u v.
        transitivity (v +' (u -' v)); [ring|]. transitivity (v +' div K ((u -' v) *' (u +' v)) (u +' v)).
        - f_equal. rewrite (Fdiv_def HF). rewrite <- (div_mul K HR HF (u -' v) (u +' v)) at 1 by auto. rewrite (Fdiv_def HF). ring.
        - rewrite Z0, (Fdiv_def HF). ring. }
      specialize (S i Hi). rewrite Hd in S. assert (P2 : g j j <> 0') by (apply (o_ne K HO), G2; lia).
      transitivity (g j j *' div K (f i j) (g j j)); [symmetry; apply (div_mul K HR HF); auto|].
      transitivity (g j j *' div K (g i j) (g j j)); [|apply (div_mul K HR HF); auto].
      rewrite (Fdiv_def HF (f i j)), (Fdiv_def HF (g i j)).
      transitivity (div K (one K) (g j j) *' (f i j *' g j j)); [ring|]. rewrite S. ring. }
    intros i j Hij Hi. apply (X (j + 1)); lia.
  Qed.
End M.
