(* PQrA.v: the algebra of products of reflectors. *)
From Coq Require Import ZArith Lia Bool ZifyBool Ring Field.
From Verif Require Import PFrame PTrsm MFlags MNum SpecNum PSum PNorm MHouse SpecHouse SpecQr PHouse.
Local Open Scope Z_scope.

Ltac lia := nobool; zlia.

Section Q.
  Context {T : Type} (K : num T).
  Hypotheses (HF : is_field K) (HO : is_ordered K) (HE : eqb_ok K).
  Let HF' : field_theory (zero K) (one K) (add K) (mul K) (sub K) (opp K) (div K)
    (fun x => div K (one K) x) eq := HF.
  Add Field KfieldQ : HF'.
  Let HR : is_ring K := Field_theory.F_R HF.
  Local Notation "a +' b" := (add K a b) (at level 50, left associativity).
  Local Notation "a -' b" := (sub K a b) (at level 50, left associativity).
  Local Notation "a *' b" := (mul K a b) (at level 40, left associativity).
  Local Notation "0'" := (zero K).
  Local Notation "1'" := (one K).

  (* t = 0 or t*(v.v) = 2 *)
  Definition tok (n : Z) (t : T) (v : Z -> T) : Prop := t *' (t *' inner K n v v -' (1' +' 1')) = 0'.

  Lemma tok_ext : forall n t v v', (forall k, 0 <= k < n -> v k = v' k) -> tok n t v -> tok n t v'.
  Proof. intros n t v v' H. unfold tok. rewrite (inner_ext K n v v' v v') by auto. auto. Qed.

  Lemma reflect_invol : forall n t v z i, tok n t v -> reflect K n t v (reflect K n t v z) i = z i.
  Proof.
    intros n t v z i H. set (a := inner K n v z).
    assert (E : inner K n v (reflect K n t v z) = a -' t *' a *' inner K n v v).
    { rewrite (inner_sym K HF n v). unfold reflect. fold a.
      transitivity (inner K n (fun i => z i -' (t *' a) *' v i) v).
      - apply inner_ext; intros; ring.
      - rewrite (inner_sub K HF), (inner_sym K HF n z v). reflexivity. }
    unfold reflect at 1. rewrite E. unfold reflect. fold a.
    transitivity (z i +' v i *' a *' (t *' (t *' inner K n v v -' (1' +' 1')))); [ring|]. rewrite H. ring.
  Qed.

  (* a vector that vanishes below k sees only the rest *)
  Lemma inner_embed : forall n k v z, 0 <= k <= n -> (forall i, 0 <= i < k -> v i = 0') ->
    inner K n v z = inner K (n - k) (fun r => v (k + r)) (fun r => z (k + r)).
  Proof.
    intros n k v z Hk Hv. unfold inner. replace n with (k + (n - k)) at 1 by lia. rewrite (vsum_split K HR) by lia.
    rewrite (vsum_zero K HR k) by (intros q Hq; rewrite Hv by auto; ring). ring.
  Qed.

  Lemma reflect_low : forall n t v z i, v i = 0' -> reflect K n t v z i = z i.
  Proof. intros n t v z i H. unfold reflect. rewrite H. ring. Qed.

  Lemma reflect_embed : forall n k t v z i, 0 <= k <= n -> (forall i, 0 <= i < k -> v i = 0') -> k <= i ->
    reflect K n t v z i = reflect K (n - k) t (fun r => v (k + r)) (fun r => z (k + r)) (i - k).
  Proof. intros n k t v z i Hk Hv Hi. unfold reflect. rewrite (inner_embed n k) by auto. replace (k + (i - k)) with i by lia. reflexivity. Qed.

  Lemma reflect_fix : forall n t v z i, (forall k, 0 <= k < n -> v k = 0' \/ z k = 0') -> reflect K n t v z i = z i.
  Proof.
    intros n t v z i H. unfold reflect, inner. rewrite (vsum_zero K HR n); [ring|].
    intros k Hk. destruct (H k Hk) as [->| ->]; ring.
  Qed.

  Lemma hvec_low : forall a q i, i < q -> hvec K a q i = 0'.
  Proof. intros. unfold hvec. replace (i <? q) with true by lia. reflexivity. Qed.

  Lemma hvec_cons : forall a q r, 0 <= r -> hvec K a q (q + r) = vcons 1' (fun p => a (q + 1 + p) q) r.
  Proof.
    intros a q r Hr. unfold hvec, vcons. replace (q + r <? q) with false by lia.
    destruct (r =? 0) eqn:E; [replace (q + r =? q) with true by lia; auto|].
    replace (q + r =? q) with false by lia. f_equal. lia.
  Qed.

  Lemma hvec_ext : forall n a a' q i, (forall i, q < i < n -> a i q = a' i q) -> 0 <= i < n -> hvec K a q i = hvec K a' q i.
  Proof. intros n a a' q i H Hi. unfold hvec. destruct (i <? q) eqn:E1; auto. destruct (i =? q) eqn:E2; auto. apply H. lia. Qed.

  Lemma hmap_ext : forall n a a' t t' q z z' i, (forall i, q < i < n -> a i q = a' i q) -> t q = t' q ->
    (forall i, 0 <= i < n -> z i = z' i) -> 0 <= i < n -> hmap K n a t q z i = hmap K n a' t' q z' i.
  Proof.
    intros n a a' t t' q z z' i Ha Ht Hz Hi. unfold hmap. rewrite Ht. apply reflect_ext; auto.
    intros k Hk. apply (hvec_ext n); auto.
  Qed.

  Lemma qapply_ext : forall n a a' t t' k z z', (forall i q, 0 <= q < Z.of_nat k -> q < i < n -> a i q = a' i q) ->
    (forall q, 0 <= q < Z.of_nat k -> t q = t' q) -> (forall i, 0 <= i < n -> z i = z' i) ->
    forall i, 0 <= i < n -> qapply K n a t k z i = qapply K n a' t' k z' i.
  Proof.
    intros n a a' t t' k. induction k as [|k IH]; intros z z' Ha Ht Hz i Hi; cbn [qapply]; [auto|].
    apply IH; auto.
    - intros. apply Ha; lia.
    - intros. apply Ht; lia.
    - intros j Hj. apply hmap_ext; auto.
      + intros. apply Ha; lia.
      + apply Ht; lia.
  Qed.

  Lemma qtapply_ext : forall n a a' t t' k z z', (forall i q, 0 <= q < Z.of_nat k -> q < i < n -> a i q = a' i q) ->
    (forall q, 0 <= q < Z.of_nat k -> t q = t' q) -> (forall i, 0 <= i < n -> z i = z' i) ->
    forall i, 0 <= i < n -> qtapply K n a t k z i = qtapply K n a' t' k z' i.
  Proof.
    intros n a a' t t' k. induction k as [|k IH]; intros z z' Ha Ht Hz i Hi; cbn [qtapply]; [auto|].
    apply hmap_ext; auto.
    - intros. apply Ha; lia.
    - apply Ht; lia.
    - intros j Hj. apply IH; auto.
      + intros. apply Ha; lia.
      + intros. apply Ht; lia.
  Qed.

  Lemma qapply_iso : forall n a t k, (forall q, 0 <= q < Z.of_nat k -> isometry K n (hmap K n a t q)) -> isometry K n (qapply K n a t k).
  Proof.
    intros n a t k. induction k as [|k IH]; intros H y z; cbn [qapply]; [reflexivity|].
    rewrite IH by (intros; apply H; lia). apply H. lia.
  Qed.

  (* the transposed product undoes the product *)
  Lemma qt_q : forall n a t k, (forall q, 0 <= q < Z.of_nat k -> tok n (t q) (hvec K a q)) ->
    forall z i, 0 <= i < n -> qtapply K n a t k (qapply K n a t k z) i = z i.
  Proof.
    intros n a t k. induction k as [|k IH]; intros H z i Hi; cbn [qapply qtapply]; [reflexivity|].
    transitivity (hmap K n a t (Z.of_nat k) (hmap K n a t (Z.of_nat k) z) i).
    - apply hmap_ext; auto. intros j Hj. apply IH; auto. intros; apply H; lia.
    - apply reflect_invol. apply H. lia.
  Qed.

  Lemma q_qt : forall n a t k, (forall q, 0 <= q < Z.of_nat k -> tok n (t q) (hvec K a q)) ->
    forall z i, 0 <= i < n -> qapply K n a t k (qtapply K n a t k z) i = z i.
  Proof.
    intros n a t k. induction k as [|k IH]; intros H z i Hi; cbn [qapply qtapply]; [reflexivity|].
    transitivity (qapply K n a t k (qtapply K n a t k z) i).
    - apply qapply_ext; auto. intros j Hj. apply reflect_invol. apply H. lia.
    - apply IH; auto. intros; apply H; lia.
  Qed.

  (* what is left to factor after k columns: the columns done are cleared below the diagonal *)
  Definition todo (k : Z) (a : Z -> Z -> T) (i j : Z) : T := if (j <? k) && (j <? i) then 0' else a i j.

  Definition qr_inv (M N k : Z) (a0 a : Z -> Z -> T) (t : Z -> T) : Prop :=
    (forall i j, 0 <= i < M -> 0 <= j < N -> a0 i j = qapply K M a t (Z.to_nat k) (fun r => todo k a r j) i) /\
    (forall q, 0 <= q < k -> tok M (t q) (hvec K a q)) /\ (M - 1 < k -> 0 < M -> t (M - 1) = 0') /\
    (* a reflector with t = 0 has the vector (1, 0, 0, ...) *)
    (forall q i, 0 <= q < k -> q < i < M -> t q = 0' -> a i q = 0').

  Lemma inner0 : forall n x, inner K n x x = 0' -> forall k, 0 <= k < n -> x k = 0'.
  Proof.
    intros n x H k Hk. destruct (eqb K (x k) 0') eqn:E; [apply HE; auto|]. exfalso. apply (eqb_iff K HE) in E.
    assert (Hs : ltb K 0' (vsum K n (fun k => x k *' x k)) = true).
    { apply (o_sq K HF HO) in E. replace n with (k + (1 + (n - k - 1))) by lia. rewrite (vsum_split K HR) by lia.
      rewrite (vsum_split K HR 1) by lia. rewrite (vsum_1 K HR). rewrite Z.add_0_r.
      match goal with |- ltb K 0' (?A +' (?B +' ?C)) = true => replace (A +' (B +' C)) with (B +' (A +' C)) by ring end.
      apply (o_add_pos K HF HO); auto. apply (o_add_nn K HF HO); apply (vsum_nn K HF HO); intros; apply (o_sq_nn K HF HO). }
    unfold inner in H. rewrite H, (o_irr K HO) in Hs. discriminate.
  Qed.

  Lemma house_tok : forall flags n a x b t v, house_res K flags n a x b t v -> tok (n + 1) t (vcons 1' v).
  Proof.
    intros flags n a x b t v H. unfold house_res in H. unfold tok. destruct (eqb K (inner K n x x) 0').
    - destruct H as (-> & _). ring.
    - destruct H as (_ & -> & _). ring.
  Qed.

  Lemma house_map : forall flags n a x b t v, has flags ARMAS_HHNEGATIVE = false -> house_res K flags n a x b t v -> 0 <= n ->
    forall i, 0 <= i < n + 1 -> reflect K (n + 1) t (vcons 1' v) (vcons a x) i = vcons b (fun _ => 0') i.
  Proof.
    intros flags n a x b t v Hn H Hn0 i Hi. unfold house_res in H. destruct (eqb K (inner K n x x) 0') eqn:E.
    - apply HE in E. destruct H as (-> & -> & _). pose proof (inner0 _ _ E) as Hx. unfold reflect, vcons.
      destruct (i =? 0) eqn:Ei; [ring|]. rewrite Hx by lia. ring.
    - destruct H as (H & _). rewrite H by auto. unfold neg_of. rewrite Hn. reflexivity.
  Qed.

  Lemma two_ne : 1' +' 1' <> 0'.
  Proof.
    intros H. pose proof (o_one K HF HO) as X. assert (Y : ltb K 0' (1' +' 1') = true) by (apply (o_add_pos K HF HO); auto; apply (o_nlt K HO); auto).
    rewrite H, (o_irr K HO) in Y. discriminate.
  Qed.

  Lemma house_zero : forall flags n a x b t v, house_res K flags n a x b t v -> t = 0' -> forall r, 0 <= r < n -> v r = 0'.
  Proof.
    intros flags n a x b t v H Ht r Hr. unfold house_res in H. destruct (eqb K (inner K n x x) 0') eqn:E.
    - apply HE in E. destruct H as (_ & _ & ->); auto. apply (inner0 n); auto.
    - destruct H as (_ & H & _). exfalso. apply two_ne. rewrite <- H, Ht. ring.
  Qed.

  (* one step of the factorization *)
  Lemma qr_step : forall flags M N k a0 a a' t t', has flags ARMAS_HHNEGATIVE = false -> 0 <= k -> k < M -> k < N ->
    (forall i j, 0 <= i < M -> 0 <= j < k -> a' i j = a i j) -> (forall i j, 0 <= i < k -> 0 <= j < N -> a' i j = a i j) ->
    (forall q, 0 <= q < k -> t' q = t q) ->
    house_res K flags (M - k - 1) (a k k) (fun r => a (k + 1 + r) k) (a' k k) (t' k) (fun r => a' (k + 1 + r) k) ->
    (forall r j, 0 <= r < M - k -> k < j < N -> a' (k + r) j =
       reflect K (M - k) (t' k) (vcons 1' (fun r => a' (k + 1 + r) k)) (vcons (a k j) (fun r => a (k + 1 + r) j)) r) ->
    qr_inv M N k a0 a t -> qr_inv M N (k + 1) a0 a' t'.
  Proof.
    intros flags M N k a0 a a' t t' Hfl Hk HkM HkN Hcol Hrow Ht Hh Hu (I1 & I2 & I3).
    assert (TK : tok M (t' k) (hvec K a' k)).
    { apply house_tok in Hh. unfold tok in *. rewrite (inner_embed M k) by (try lia; intros; apply hvec_low; lia).
      rewrite (inner_ext K (M - k) (fun r => hvec K a' k (k + r)) (vcons 1' (fun r => a' (k + 1 + r) k))
        (fun r => hvec K a' k (k + r)) (vcons 1' (fun r => a' (k + 1 + r) k))) by (intros; apply hvec_cons; lia).
      replace (M - k) with (M - k - 1 + 1) by lia. exact Hh. }
    split; [|split].
    - intros i j Hi Hj. rewrite I1 by auto. replace (Z.to_nat (k + 1)) with (S (Z.to_nat k)) by Lia.lia. cbn [qapply].
      apply qapply_ext; auto.
      + intros r q Hq Hr. symmetry. apply Hcol; lia.
      + intros q Hq. symmetry. apply Ht. lia.
      + intros r Hr. rewrite Z2Nat.id by lia.
        (* F_k = H_k F_{k+1}, because H_k F_k = F_{k+1} *)
        assert (S : forall r, 0 <= r < M -> hmap K M a' t' k (fun r => todo k a r j) r = todo (k + 1) a' r j).
        { clear r Hr. intros r Hr. destruct (Z_lt_ge_dec j k) as [Hjk|Hjk].
          - unfold hmap. rewrite reflect_fix.
            + unfold todo. replace (j <? k) with true by lia. replace (j <? k + 1) with true by lia. cbn [andb].
              destruct (j <? r) eqn:E; auto. symmetry. apply Hcol; lia.
            + intros p Hp. destruct (Z_lt_ge_dec p k) as [Hpk|Hpk]; [left; apply hvec_low; lia|right].
              unfold todo. replace (j <? k) with true by lia. replace (j <? p) with true by lia. reflexivity.
          - unfold hmap. destruct (Z_lt_ge_dec r k) as [Hrk|Hrk].
            + rewrite reflect_low by (apply hvec_low; lia). unfold todo. replace (j <? k) with false by lia.
              replace (j <? r) with false by lia. rewrite !andb_false_r. symmetry. apply Hrow; lia.
            + rewrite (reflect_embed M k) by (try lia; intros; apply hvec_low; lia).
              transitivity (reflect K (M - k) (t' k) (vcons 1' (fun r => a' (k + 1 + r) k)) (vcons (a k j) (fun r => a (k + 1 + r) j)) (r - k)).
              { apply reflect_ext; [| |lia].
                - intros p Hp. apply hvec_cons. lia.
                - intros p Hp. unfold todo. replace (j <? k) with false by lia. cbn [andb]. unfold vcons.
                  destruct (p =? 0) eqn:E; f_equal; lia. }
              destruct (Z.eq_dec j k) as [->|Hne].
              * pose proof (house_map flags (M - k - 1) _ _ _ _ _ Hfl Hh ltac:(lia) (r - k) ltac:(lia)) as Hm.
                replace (M - k - 1 + 1) with (M - k) in Hm by lia. rewrite Hm. unfold vcons, todo.
                replace (k <? k + 1) with true by lia. cbn [andb]. destruct (r - k =? 0) eqn:E.
                -- replace (k <? r) with false by lia. f_equal; lia.
                -- replace (k <? r) with true by lia. reflexivity.
              * rewrite <- Hu by lia. unfold todo. replace (j <? k + 1) with false by lia. cbn [andb]. f_equal. lia. }
        transitivity (hmap K M a' t' k (hmap K M a' t' k (fun r => todo k a r j)) r).
        * symmetry. exact (reflect_invol M (t' k) (hvec K a' k) (fun r => todo k a r j) r TK).
        * apply hmap_ext; auto.
    - intros q Hq. destruct (Z.eq_dec q k) as [->|Hne]; [exact TK|]. rewrite Ht by lia.
      apply (tok_ext M _ (hvec K a q)); [|apply I2; lia]. intros i Hi. apply (hvec_ext M); auto. intros. symmetry. apply Hcol; lia.
    - destruct I3 as (I3 & I4). split; cycle 1.
      { intros q i Hq Hi. destruct (Z.eq_dec q k) as [->|Hne]; [|rewrite Ht, Hcol by lia; apply I4; lia].
        intros Z0. pose proof (house_zero _ _ _ _ _ _ _ Hh Z0 (i - k - 1) ltac:(lia)) as X. cbv beta in X. rewrite <- X. f_equal. lia. }
      intros HM _. replace (M - 1) with k by lia. unfold house_res in Hh. replace (M - k - 1) with 0 in Hh by lia.
      replace (eqb K (inner K 0 (fun r => a (k + 1 + r) k) (fun r => a (k + 1 + r) k)) 0') with true in Hh.
      + apply Hh.
      + symmetry. apply HE. unfold inner. apply vsum_0. lia.
  Qed.
End Q.
