(* PQrB.v: the algebra of block reflectors I - Y*T*Y^T. *)
From Coq Require Import ZArith Lia Bool ZifyBool Ring Field.
From Verif Require Import PFrame PTrsm MFlags MNum SpecNum PSum PNorm MHouse SpecHouse SpecQr PHouse PQrA.
Local Open Scope Z_scope.

Ltac lia := nobool; zlia.

Section Q.
  Context {T : Type} (K : num T).
  Hypotheses (HF : is_field K) (HO : is_ordered K) (HE : eqb_ok K).
  Let HF' : field_theory (zero K) (one K) (add K) (mul K) (sub K) (opp K) (div K)
    (fun x => div K (one K) x) eq := HF.
  Add Field KfieldQB : HF'.
  Let HR : is_ring K := Field_theory.F_R HF.
  Local Notation "a +' b" := (add K a b) (at level 50, left associativity).
  Local Notation "a -' b" := (sub K a b) (at level 50, left associativity).
  Local Notation "a *' b" := (mul K a b) (at level 40, left associativity).
  Local Notation "0'" := (zero K).
  Local Notation "1'" := (one K).

  (* ((I - Y*Tm*Y^T)*z)_i for the vectors y_q *)
  Definition bapply (n k : Z) (y : Z -> Z -> T) (Tm : Z -> Z -> T) (z : Z -> T) (i : Z) : T :=
    z i -' vsum K k (fun q => y q i *' vsum K k (fun p => Tm q p *' inner K n (y p) z)).

  Lemma bapply_ext : forall n k y y' Tm Tm' z z' i, (forall q i, 0 <= q < k -> 0 <= i < n -> y q i = y' q i) ->
    (forall q p, 0 <= q < k -> 0 <= p < k -> Tm q p = Tm' q p) -> (forall i, 0 <= i < n -> z i = z' i) -> 0 <= i < n ->
    bapply n k y Tm z i = bapply n k y' Tm' z' i.
  Proof.
    intros n k y y' Tm Tm' z z' i H1 H2 H3 Hi. unfold bapply. rewrite H3 by auto. f_equal. apply vsum_ext. intros q Hq. rewrite H1 by auto.
    f_equal. apply vsum_ext. intros p Hp. rewrite H2 by auto. f_equal. apply inner_ext; auto.
  Qed.

  (* Tm is the triangular factor of H_0*...*H_{k-1} *)
  Definition is_T (n k : Z) (y : Z -> Z -> T) (t : Z -> T) (Tm : Z -> Z -> T) : Prop :=
    forall p, 0 <= p < k -> Tm p p = t p /\
      (forall q, 0 <= q < p -> Tm q p = opp K (t p) *' vsum K p (fun r => Tm q r *' inner K n (y r) (y p))) /\
      (forall q, p < q < k -> Tm q p = 0').

  Lemma inner_reflect : forall n t v z y, inner K n y (reflect K n t v z) = inner K n y z -' t *' inner K n v z *' inner K n y v.
  Proof.
    intros n t v z y. set (a := inner K n v z). rewrite (inner_sym K HF n y).
    transitivity (inner K n (fun i => z i -' (t *' a) *' v i) y).
    - apply inner_ext; auto. intros; unfold reflect; fold a; ring.
    - rewrite (inner_sub K HF), (inner_sym K HF n z y), (inner_sym K HF n v y). ring.
  Qed.

  Lemma vsum_sub' : forall n f g, vsum K n (fun k => f k -' g k) = vsum K n f -' vsum K n g.
  Proof.
    intros n f g. transitivity (vsum K n (fun k => f k +' opp K 1' *' g k)).
    - apply vsum_ext. intros; ring.
    - rewrite (vsum_add K HR), (vsum_mul_l K HR). ring.
  Qed.

  Lemma T_q : forall n a t k Tm, is_T n (Z.of_nat k) (hvec K a) t Tm -> forall z i, 0 <= i < n ->
    qapply K n a t k z i = bapply n (Z.of_nat k) (hvec K a) Tm z i.
  Proof.
    intros n a t k Tm. induction k as [|k IH]; intros H z i Hi.
    - cbn [qapply]. unfold bapply. rewrite vsum_0 by lia. ring.
    - cbn [qapply]. rewrite IH; auto.
      2:{ intros p Hp. destruct (H p ltac:(lia)) as (H1 & H2 & H3). split; [auto|]. split; auto. intros; apply H3; lia. }
      set (k' := Z.of_nat k). replace (Z.of_nat (S k)) with (k' + 1) in * by lia. unfold bapply, hmap.
      set (h := hvec K a). fold h in H. set (c := inner K n (h k') z).
      rewrite (vsum_S K k') by lia.
      destruct (H k' ltac:(lia)) as (H1 & H2 & _).
      assert (E1 : vsum K (k' + 1) (fun p => Tm k' p *' inner K n (h p) z) = t k' *' c).
      { rewrite vsum_S by lia. rewrite (vsum_zero K HR k'); [rewrite H1; unfold c; ring|].
        intros p Hp. destruct (H p ltac:(lia)) as (_ & _ & H3). rewrite H3 by lia. ring. }
      rewrite E1.
      assert (E2 : vsum K k' (fun q => h q i *' vsum K (k' + 1) (fun p => Tm q p *' inner K n (h p) z)) =
                   vsum K k' (fun q => h q i *' vsum K k' (fun p => Tm q p *' inner K n (h p) (reflect K n (t k') (h k') z)))).
      { apply vsum_ext. intros q Hq. f_equal. rewrite vsum_S by lia. rewrite (H2 q Hq).
        transitivity (vsum K k' (fun p => Tm q p *' inner K n (h p) z -' (t k' *' c) *' (Tm q p *' inner K n (h p) (h k')))).
        - rewrite vsum_sub', (vsum_mul_l K HR). fold c. ring.
        - apply vsum_ext. intros p Hp. rewrite inner_reflect. fold c. ring. }
      rewrite E2. unfold reflect at 1. fold c. fold k' h. ring.
  Qed.

  Lemma T_qt : forall n a t k Tm, is_T n (Z.of_nat k) (hvec K a) t Tm -> forall z i, 0 <= i < n ->
    qtapply K n a t k z i = bapply n (Z.of_nat k) (hvec K a) (fun q p => Tm p q) z i.
  Proof.
    intros n a t k Tm. induction k as [|k IH]; intros H z i Hi.
    - cbn [qtapply]. unfold bapply. rewrite vsum_0 by lia. ring.
    - cbn [qtapply]. set (k' := Z.of_nat k) in *. replace (Z.of_nat (S k)) with (k' + 1) in * by lia.
      assert (H' : is_T n k' (hvec K a) t Tm).
      { intros p Hp. destruct (H p ltac:(lia)) as (H1 & H2 & H3). split; [auto|]. split; auto. intros; apply H3; lia. }
      transitivity (hmap K n a t k' (bapply n k' (hvec K a) (fun q p => Tm p q) z) i).
      { apply hmap_ext; auto. }
      unfold hmap.
      set (h := hvec K a) in *. set (c := inner K n (h k') z).
      set (s := fun q => vsum K k' (fun p => Tm p q *' inner K n (h p) z)).
      assert (EB : forall r, bapply n k' h (fun q p => Tm p q) z r = z r -' vsum K k' (fun q => h q r *' s q)) by reflexivity.
      destruct (H k' ltac:(lia)) as (H1 & H2 & _).
      assert (E0 : inner K n (h k') (bapply n k' h (fun q p => Tm p q) z) = c -' vsum K k' (fun q => inner K n (h q) (h k') *' s q)).
      { unfold c, inner at 1 2.
        transitivity (vsum K n (fun r => h k' r *' z r -' vsum K k' (fun q => (h q r *' h k' r) *' s q))).
        - apply vsum_ext. intros r Hr. rewrite EB.
          transitivity (h k' r *' z r -' h k' r *' vsum K k' (fun q => h q r *' s q)); [ring|]. f_equal.
          rewrite <- (vsum_mul_l K HR). apply vsum_ext. intros; ring.
        - rewrite vsum_sub'. f_equal. rewrite (vsum_swap K HR). apply vsum_ext. intros q Hq. unfold inner. rewrite <- (vsum_mul_r K HR). reflexivity. }
      unfold reflect. rewrite E0. unfold bapply at 2. rewrite (vsum_S K k') by lia.
      assert (E1 : vsum K k' (fun q => h q i *' vsum K (k' + 1) (fun p => Tm p q *' inner K n (h p) z)) = vsum K k' (fun q => h q i *' s q)).
      { apply vsum_ext. intros q Hq. f_equal. rewrite vsum_S by lia. destruct (H q ltac:(lia)) as (_ & _ & H3). rewrite H3 by lia. fold (s q). ring. }
      rewrite E1. rewrite (vsum_S K k') by lia. rewrite H1. cbv beta. fold c.
      assert (E2 : vsum K k' (fun p => Tm p k' *' inner K n (h p) z) = opp K (t k') *' vsum K k' (fun q => inner K n (h q) (h k') *' s q)).
      { transitivity (vsum K k' (fun p => opp K (t k') *' vsum K k' (fun r => (Tm p r *' inner K n (h r) (h k')) *' inner K n (h p) z))).
        - apply vsum_ext. intros p Hp. rewrite (H2 p Hp), (vsum_mul_r K HR). ring.
        - rewrite (vsum_mul_l K HR). f_equal. rewrite (vsum_swap K HR). apply vsum_ext. intros q Hq. unfold s.
          rewrite <- (vsum_mul_l K HR). apply vsum_ext. intros; ring. }
      rewrite E2, EB. ring.
  Qed.

  (* the reflectors from k on act on the rows from k on *)
  Lemma qapply_app : forall n a t k l z i, Z.of_nat k + Z.of_nat l <= n -> 0 <= i < n ->
    let k' := Z.of_nat k in
    qapply K n a t (k + l) z i = qapply K n a t k (fun i => if i <? k' then z i else
      qapply K (n - k') (fun i j => a (k' + i) (k' + j)) (fun q => t (k' + q)) l (fun r => z (k' + r)) (i - k')) i.
  Proof.
    intros n a t k l z i Hn Hi k'. revert z i Hi. induction l as [|l IH]; intros z i Hi.
    - rewrite Nat.add_0_r. apply (qapply_ext K); auto. intros j Hj. cbn [qapply]. destruct (j <? k'); auto. f_equal; lia.
    - rewrite Nat.add_succ_r. cbn [qapply]. rewrite IH by (auto; lia). apply (qapply_ext K); auto. intros j Hj.
      replace (Z.of_nat (k + l)) with (k' + Z.of_nat l) by lia.
      assert (Hlow : forall i, 0 <= i < k' + Z.of_nat l -> hvec K a (k' + Z.of_nat l) i = 0') by (intros; apply hvec_low; lia).
      destruct (j <? k') eqn:Ej.
      + apply (reflect_low K HF). apply Hlow. lia.
      + apply (qapply_ext K); auto; [|lia]. intros r Hr. unfold hmap.
        rewrite (reflect_embed K HF n k') by (try lia; intros; apply Hlow; lia).
        replace (k' + r - k') with r by lia. apply (reflect_ext K); [| |lia].
        * intros p Hp. unfold hvec. replace (k' + p <? k' + Z.of_nat l) with (p <? Z.of_nat l) by lia.
          replace (k' + p =? k' + Z.of_nat l) with (p =? Z.of_nat l) by lia. reflexivity.
        * auto.
  Qed.

  Lemma qapply_zero : forall n a t k z i, (forall i, 0 <= i < n -> z i = 0') -> 0 <= i < n -> qapply K n a t k z i = 0'.
  Proof.
    intros n a t k. induction k as [|k IH]; intros z i Hz Hi; cbn [qapply]; [auto|]. apply IH; auto.
    intros j Hj. unfold hmap. rewrite (reflect_fix K HF); auto.
  Qed.

  (* one block of l columns *)
  Lemma qr_block : forall M N k l a0 a a' t t', 0 <= k -> 0 <= l -> k + l <= M -> k + l <= N ->
    (forall i j, 0 <= i < M -> 0 <= j < k -> a' i j = a i j) -> (forall i j, 0 <= i < k -> 0 <= j < N -> a' i j = a i j) ->
    (forall q, 0 <= q < k -> t' q = t q) ->
    qr_inv K (M - k) l l (fun i j => a (k + i) (k + j)) (fun i j => a' (k + i) (k + j)) (fun q => t' (k + q)) ->
    (forall r j, 0 <= r < M - k -> k + l <= j < N -> a' (k + r) j =
       qtapply K (M - k) (fun i j => a' (k + i) (k + j)) (fun q => t' (k + q)) (Z.to_nat l) (fun r => a (k + r) j) r) ->
    qr_inv K M N k a0 a t -> qr_inv K M N (k + l) a0 a' t'.
  Proof.
    intros M N k l a0 a a' t t' Hk Hl HM HN Hcol Hrow Ht (P1 & P2 & P3) Hu (I1 & I2 & I3). split; [|split].
    - intros i j Hi Hj. rewrite I1 by auto. rewrite Z2Nat.inj_add by lia.
      rewrite (qapply_app M a' t') by (auto; lia). rewrite !Z2Nat.id by lia. apply (qapply_ext K); auto.
      + intros r q Hq Hr. symmetry. apply Hcol; lia.
      + intros q Hq. symmetry. apply Ht. lia.
      + intros r Hr. destruct (r <? k) eqn:Er.
        * unfold todo. replace ((j <? k + l) && (j <? r)) with ((j <? k) && (j <? r)) by lia. destruct (_ && _); auto. symmetry. apply Hrow; lia.
        * destruct (Z_lt_ge_dec j k) as [Hjk|Hjk]; [|destruct (Z_lt_ge_dec j (k + l)) as [Hjl|Hjl]].
          -- rewrite qapply_zero by (try lia; intros p Hp; unfold todo; replace (j <? k + l) with true by lia; replace (j <? k + p) with true by lia; reflexivity).
             unfold todo. replace (j <? k) with true by lia. replace (j <? r) with true by lia. reflexivity.
          -- unfold todo at 1. replace (j <? k) with false by lia. cbn [andb].
             specialize (P1 (r - k) (j - k) ltac:(lia) ltac:(lia)). replace (k + (r - k)) with r in P1 by lia. replace (k + (j - k)) with j in P1 by lia.
             rewrite P1. apply (qapply_ext K); auto; [|lia]. intros p Hp. unfold todo. replace (k + (j - k)) with j by lia.
             replace (j - k <? l) with (j <? k + l) by lia. replace (j - k <? p) with (j <? k + p) by lia. reflexivity.
          -- unfold todo at 1. replace (j <? k) with false by lia. cbn [andb].
             transitivity ((fun r => a (k + r) j) (r - k)); [f_equal; lia|].
             pose proof (q_qt K HF (M - k) (fun i j => a' (k + i) (k + j)) (fun q => t' (k + q)) (Z.to_nat l) ltac:(intros; apply P2; lia)
               (fun r => a (k + r) j) (r - k) ltac:(lia)) as QQ. rewrite <- QQ.
             apply (qapply_ext K); auto; [|lia]. intros p Hp. rewrite <- Hu by lia. unfold todo. replace (j <? k + l) with false by lia. reflexivity.
    - intros q Hq. destruct (Z_lt_ge_dec q k) as [Hqk|Hqk].
      + rewrite Ht by lia. apply (tok_ext K M _ (hvec K a q)); [|apply I2; lia]. intros i Hi. apply (hvec_ext K M); auto. intros. symmetry. apply Hcol; lia.
      + specialize (P2 (q - k) ltac:(lia)). replace (k + (q - k)) with q in P2 by lia. unfold tok in *.
        rewrite (inner_embed K HF M k) by (try lia; intros; apply hvec_low; lia).
        rewrite (inner_ext K (M - k) (fun r => hvec K a' q (k + r)) (hvec K (fun i j => a' (k + i) (k + j)) (q - k))
          (fun r => hvec K a' q (k + r)) (hvec K (fun i j => a' (k + i) (k + j)) (q - k))); [exact P2| |].
        1, 2: intros p Hp; unfold hvec; replace (k + p <? q) with (p <? q - k) by lia; replace (k + p =? q) with (p =? q - k) by lia;
          replace (k + (q - k)) with q by lia; reflexivity.
    - destruct I3 as (I3 & I4), P3 as (P3 & P4). split; cycle 1.
      { intros q i Hq Hi. destruct (Z_lt_ge_dec q k) as [Hqk|Hqk]; [rewrite Ht, Hcol by lia; apply I4; lia|].
        specialize (P4 (q - k) (i - k) ltac:(lia) ltac:(lia)). replace (k + (q - k)) with q in P4 by lia. replace (k + (i - k)) with i in P4 by lia. exact P4. }
      intros HM1 HM0. destruct (Z_lt_ge_dec (M - 1) k) as [Hqk|Hqk].
      + rewrite Ht by lia. apply I3; lia.
      + replace (M - 1) with (k + (M - k - 1)) by lia. apply P3; lia.
  Qed.
End Q.
