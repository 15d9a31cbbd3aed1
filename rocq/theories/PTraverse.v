(* PTraverse.v: lemmas on block traversals. *)
From Coq Require Import ZArith List Lia Bool ZifyBool.
From Verif Require Import Mem MView SpecView PView MTraverse.
Import ListNotations.
Local Open Scope Z_scope.

Lemma repart_down_blocks : forall A TL nb, 1 <= nb ->
  0 <= rows TL < rows A -> 0 <= cols TL < cols A ->
  let t := mat_repartition_2x2to3x3 TL A nb PBottom in
  let n := Z.min nb (Z.min (rows A - rows TL) (cols A - cols TL)) in
  rows (A00 t) = rows TL /\ cols (A00 t) = cols TL /\
  is_square_block A (A11 t) (rows TL) (cols TL) n.
Proof.
  intros A TL nb Hnb Hr Hc. cbv zeta. unfold mat_repartition_2x2to3x3, is_square_block.
  cbn -[Z.mul Z.add Z.sub Z.min]. repeat split; try reflexivity; dbool; lia.
Qed.

Lemma repart_up_blocks : forall A TL nb, 1 <= nb ->
  0 < rows TL <= rows A -> 0 < cols TL <= cols A ->
  let t := mat_repartition_2x2to3x3 TL A nb PTop in
  let n := Z.min nb (Z.min (rows TL) (cols TL)) in
  rows (A00 t) = rows TL - n /\ cols (A00 t) = cols TL - n /\
  is_square_block A (A11 t) (rows TL - n) (cols TL - n) n.
Proof.
  intros A TL nb Hnb Hr Hc. cbv zeta. unfold mat_repartition_2x2to3x3, is_square_block.
  set (nb1 := if nb >? cols TL then cols TL else nb).
  set (nb2 := if nb1 >? rows TL then rows TL else nb1).
  assert (nb2 = Z.min nb (Z.min (rows TL) (cols TL))) by (unfold nb2, nb1; dbool; lia).
  cbn -[Z.mul Z.add Z.sub Z.min]. fold nb1. fold nb2. rewrite H.
  repeat split; try reflexivity; lia.
Qed.

(* state of the downward traversal after k rounds *)
Lemma trav_down_inv : forall A nb, wf A -> 1 <= nb ->
  forall fuel b k, 0 <= k ->
  rows (ATL b) = k -> cols (ATL b) = k -> k <= Z.min (rows A) (cols A) ->
  rows (ABR b) = rows A - k -> cols (ABR b) = cols A - k ->
  (Z.to_nat (Z.min (rows A) (cols A) - k) <= fuel)%nat ->
  exists l e, trav_down fuel A nb b = Some (l, e) /\
    rows (ATL e) = Z.min (rows A) (cols A) /\ cols (ATL e) = Z.min (rows A) (cols A) /\
    (forall q t, nth_error l q = Some t ->
       tiles (list3 t) A /\
       k + Z.of_nat q * nb < Z.min (rows A) (cols A) /\
       is_square_block A (A11 t) (k + Z.of_nat q * nb) (k + Z.of_nat q * nb)
         (Z.min nb (Z.min (rows A) (cols A) - (k + Z.of_nat q * nb)))) /\
    (forall q, k + Z.of_nat q * nb < Z.min (rows A) (cols A) ->
       exists t, nth_error l q = Some t).
Proof.
  intros A nb Hwf Hnb. pose proof Hwf as (Hr & Hc & Hs).
  induction fuel as [|fuel IH]; intros b k Hk E1 E2 Hle E3 E4 Hf; cbn [trav_down].
  - assert (k = Z.min (rows A) (cols A)) by lia.
    replace ((rows (ABR b) >? 0) && (cols (ABR b) >? 0)) with false by lia.
    exists [], b. split; [reflexivity|]. split; [lia|]. split; [lia|]. split.
    + intros [|q] t; discriminate.
    + intros q Hq. lia.
  - destruct ((rows (ABR b) >? 0) && (cols (ABR b) >? 0)) eqn:E.
    + destruct (repart_down_blocks A (ATL b) nb Hnb) as (R1 & R2 & R3); try lia.
      set (t := mat_repartition_2x2to3x3 (ATL b) A nb PBottom) in *.
      set (n := Z.min nb (Z.min (rows A - rows (ATL b)) (cols A - cols (ATL b)))) in *.
      assert (HT : tiles (list3 t) A) by (apply repart_2x2_tiles; auto; lia).
      pose proof R3 as (S1 & S2 & S3 & S4).
      destruct (IH (mat_continue_3x3to2x2 (A00 t) (A11 t) A PBottom) (k + n))
        as (l & e & H1 & H2 & H3 & H4 & H5);
        try (unfold mat_continue_3x3to2x2; cbn -[Z.mul Z.add Z.sub Z.min t n]; lia).
      cbv zeta. rewrite H1. exists (t :: l), e. split; [reflexivity|].
      split; [exact H2|]. split; [exact H3|].
      assert (HN : n = nb \/ k + n = Z.min (rows A) (cols A)) by lia.
      split.
      * intros [|q] t' Ht.
        -- injection Ht as <-. cbn [Z.of_nat]. rewrite Z.mul_0_l, Z.add_0_r.
           split; [exact HT|]. split; [lia|].
           rewrite E1, E2 in R3. unfold n in R3.
           replace (Z.min nb (Z.min (rows A) (cols A) - k))
             with (Z.min nb (Z.min (rows A - rows (ATL b)) (cols A - cols (ATL b)))) by lia.
           exact R3.
        -- cbn [nth_error] in Ht. destruct (H4 _ _ Ht) as (G1 & G2 & G3).
           split; [exact G1|]. assert (n = nb) by nia.
           replace (k + Z.of_nat (S q) * nb) with (k + n + Z.of_nat q * nb) by nia.
           split; [exact G2|exact G3].
      * intros [|q] Hq; [exists t; reflexivity|]. cbn [nth_error]. apply H5. nia.
    + assert (k = Z.min (rows A) (cols A)) by lia.
      exists [], b. split; [reflexivity|]. split; [lia|]. split; [lia|]. split.
      * intros [|q] t; discriminate.
      * intros q Hq. lia.
Qed.

Lemma trav_up_inv : forall A nb, wf A -> 1 <= nb ->
  forall fuel b k, 0 <= k ->
  k <= Z.min (rows A) (cols A) ->
  rows (ATL b) = rows A - k -> cols (ATL b) = cols A - k ->
  (Z.to_nat (Z.min (rows A) (cols A) - k) <= fuel)%nat ->
  exists l e, trav_up fuel A nb b = Some (l, e) /\
    rows (ATL e) = rows A - Z.min (rows A) (cols A) /\
    cols (ATL e) = cols A - Z.min (rows A) (cols A) /\
    (forall q t, nth_error l q = Some t ->
       tiles (list3 t) A /\
       k + Z.of_nat q * nb < Z.min (rows A) (cols A) /\
       let n := Z.min nb (Z.min (rows A) (cols A) - (k + Z.of_nat q * nb)) in
       is_square_block A (A11 t) (rows A - (k + Z.of_nat q * nb) - n)
                                 (cols A - (k + Z.of_nat q * nb) - n) n) /\
    (forall q, k + Z.of_nat q * nb < Z.min (rows A) (cols A) ->
       exists t, nth_error l q = Some t).
Proof.
  intros A nb Hwf Hnb. pose proof Hwf as (Hr & Hc & Hs).
  induction fuel as [|fuel IH]; intros b k Hk Hle E1 E2 Hf; cbn [trav_up].
  - assert (k = Z.min (rows A) (cols A)) by lia.
    replace ((rows (ATL b) >? 0) && (cols (ATL b) >? 0)) with false by lia.
    exists [], b. split; [reflexivity|]. split; [lia|]. split; [lia|]. split.
    + intros [|q] t; discriminate.
    + intros q Hq. lia.
  - destruct ((rows (ATL b) >? 0) && (cols (ATL b) >? 0)) eqn:E.
    + destruct (repart_up_blocks A (ATL b) nb Hnb) as (R1 & R2 & R3); try lia.
      set (t := mat_repartition_2x2to3x3 (ATL b) A nb PTop) in *.
      set (n := Z.min nb (Z.min (rows (ATL b)) (cols (ATL b)))) in *.
      assert (HT : tiles (list3 t) A) by (apply repart_2x2_tiles; auto; lia).
      destruct (IH (mat_continue_3x3to2x2 (A00 t) (A11 t) A PTop) (k + n))
        as (l & e & H1 & H2 & H3 & H4 & H5);
        try (unfold mat_continue_3x3to2x2; cbn -[Z.mul Z.add Z.sub Z.min t n]; lia).
      cbv zeta. rewrite H1. exists (t :: l), e. split; [reflexivity|].
      split; [exact H2|]. split; [exact H3|].
      assert (HN : n = nb \/ k + n = Z.min (rows A) (cols A)) by lia.
      split.
      * intros [|q] t' Ht.
        -- injection Ht as <-. cbn [Z.of_nat]. rewrite Z.mul_0_l, Z.add_0_r.
           split; [exact HT|]. split; [lia|].
           assert (En : Z.min nb (Z.min (rows A) (cols A) - k) = n) by lia.
           cbv zeta. rewrite En. rewrite <- E1, <- E2. exact R3.
        -- cbn [nth_error] in Ht. destruct (H4 _ _ Ht) as (G1 & G2 & G3).
           split; [exact G1|]. assert (n = nb) by nia.
           replace (k + Z.of_nat (S q) * nb) with (k + n + Z.of_nat q * nb) by nia.
           split; [exact G2|exact G3].
      * intros [|q] Hq; [exists t; reflexivity|]. cbn [nth_error]. apply H5. nia.
    + assert (k = Z.min (rows A) (cols A)) by lia.
      exists [], b. split; [reflexivity|]. split; [lia|]. split; [lia|]. split.
      * intros [|q] t; discriminate.
      * intros q Hq. lia.
Qed.

Lemma traverse_down_spec : forall A nb, wf A -> 1 <= nb ->
  let n := Z.min (rows A) (cols A) in
  exists l e,
    (forall fuel, (Z.to_nat n <= fuel)%nat -> traverse_down fuel A nb = Some (l, e)) /\
    rows (ATL e) = n /\ cols (ATL e) = n /\
    (forall q t, nth_error l q = Some t ->
       tiles (list3 t) A /\
       is_square_block A (A11 t) (Z.of_nat q * nb) (Z.of_nat q * nb)
         (Z.min nb (n - Z.of_nat q * nb))) /\
    (forall d, 0 <= d < n -> exists! q, exists t,
        nth_error l q = Some t /\ cell (A11 t) (elems A + d * step A + d)).
Proof.
  intros A nb Hwf Hnb n.
  assert (HP : forall fuel, (Z.to_nat n <= fuel)%nat -> exists l e,
    traverse_down fuel A nb = Some (l, e) /\
    rows (ATL e) = n /\ cols (ATL e) = n /\
    (forall q t, nth_error l q = Some t ->
       tiles (list3 t) A /\ Z.of_nat q * nb < n /\
       is_square_block A (A11 t) (Z.of_nat q * nb) (Z.of_nat q * nb)
         (Z.min nb (n - Z.of_nat q * nb))) /\
    (forall q, Z.of_nat q * nb < n -> exists t, nth_error l q = Some t)).
  { intros fuel Hf. destruct Hwf as (Hr & Hc & Hs).
    apply (trav_down_inv A nb (conj Hr (conj Hc Hs)) Hnb fuel (mat_partition_2x2 A 0 0 PTop) 0);
      cbn -[Z.mul Z.add Z.sub Z.min]; fold n; lia. }
  destruct (HP (Z.to_nat n) (Nat.le_refl _)) as (l & e & H1 & H2 & H3 & H4 & H5).
  exists l, e. split.
  { intros fuel Hf. revert H1. unfold traverse_down.
    generalize (mat_partition_2x2 A 0 0 PTop). revert fuel Hf.
    assert (MONO : forall f1 b l e, trav_down f1 A nb b = Some (l, e) ->
       forall f2, (f1 <= f2)%nat -> trav_down f2 A nb b = Some (l, e)).
    { clear. induction f1 as [|f1 IH]; intros b l e E f2 Hf.
      - destruct f2; cbn [trav_down] in *; destruct (_ && _); auto; discriminate.
      - destruct f2 as [|f2]; [lia|]. cbn [trav_down] in *. destruct (_ && _); auto.
        cbv zeta in *. destruct (trav_down f1 A nb _) as [[l' e']|] eqn:E'; [|discriminate].
        rewrite (IH _ _ _ E' f2) by lia. auto. }
    intros fuel Hf b Hb. eapply MONO; eauto. }
  split; [exact H2|]. split; [exact H3|]. split.
  { intros q t Ht. destruct (H4 q t Ht) as (G1 & _ & G2). auto. }
  intros d Hd. exists (Z.to_nat (d / nb)).
  assert (Hq : 0 <= d / nb) by (apply Z.div_pos; lia).
  pose proof (Z.div_mod d nb ltac:(lia)) as Ed.
  pose proof (Z.mod_pos_bound d nb ltac:(lia)) as Em. split.
  - destruct (H5 (Z.to_nat (d / nb))) as (t & Ht). { rewrite Z2Nat.id by lia. nia. }
    exists t. split; auto. destruct (H4 _ _ Ht) as (_ & _ & S1 & S2 & S3 & S4).
    rewrite Z2Nat.id in * by lia.
    exists (d mod nb), (d mod nb). unfold pos. rewrite S1, S2, S3, S4. split; nia.
  - intros q' (t & Ht & (i & j & (Hi & Hj) & Ea)).
    destruct (H4 _ _ Ht) as (_ & G & S1 & S2 & S3 & S4). rewrite S1, S2, S3, S4 in *.
    destruct (pos_inj A d d (Z.of_nat q' * nb + i) (Z.of_nat q' * nb + j) Hwf) as (I1 & I2).
    + split; lia.
    + split; lia.
    + nia.
    + assert (d / nb = Z.of_nat q').
      { symmetry. apply Z.div_unique with i; lia. }
      rewrite H. apply Nat2Z.id.
Qed.

Lemma traverse_up_spec : forall A nb, wf A -> 1 <= nb ->
  let n := Z.min (rows A) (cols A) in
  exists l e,
    (forall fuel, (Z.to_nat n <= fuel)%nat -> traverse_up fuel A nb = Some (l, e)) /\
    rows (ATL e) = rows A - n /\ cols (ATL e) = cols A - n /\
    (forall q t, nth_error l q = Some t ->
       tiles (list3 t) A /\
       let k := Z.min nb (n - Z.of_nat q * nb) in
       is_square_block A (A11 t) (rows A - Z.of_nat q * nb - k) (cols A - Z.of_nat q * nb - k) k) /\
    (forall d, 0 <= d < n -> exists! q, exists t,
        nth_error l q = Some t /\
        cell (A11 t) (elems A + (cols A - 1 - d) * step A + (rows A - 1 - d))).
Proof.
  intros A nb Hwf Hnb n.
  assert (HP : forall fuel, (Z.to_nat n <= fuel)%nat -> exists l e,
    traverse_up fuel A nb = Some (l, e) /\
    rows (ATL e) = rows A - n /\ cols (ATL e) = cols A - n /\
    (forall q t, nth_error l q = Some t ->
       tiles (list3 t) A /\ Z.of_nat q * nb < n /\
       let k := Z.min nb (n - Z.of_nat q * nb) in
       is_square_block A (A11 t) (rows A - Z.of_nat q * nb - k) (cols A - Z.of_nat q * nb - k) k) /\
    (forall q, Z.of_nat q * nb < n -> exists t, nth_error l q = Some t)).
  { intros fuel Hf. destruct Hwf as (Hr & Hc & Hs).
    apply (trav_up_inv A nb (conj Hr (conj Hc Hs)) Hnb fuel (mat_partition_2x2 A 0 0 PBottom) 0);
      cbn -[Z.mul Z.add Z.sub Z.min]; fold n; lia. }
  destruct (HP (Z.to_nat n) (Nat.le_refl _)) as (l & e & H1 & H2 & H3 & H4 & H5).
  exists l, e. split.
  { intros fuel Hf. revert H1. unfold traverse_up.
    generalize (mat_partition_2x2 A 0 0 PBottom). revert fuel Hf.
    assert (MONO : forall f1 b l e, trav_up f1 A nb b = Some (l, e) ->
       forall f2, (f1 <= f2)%nat -> trav_up f2 A nb b = Some (l, e)).
    { clear. induction f1 as [|f1 IH]; intros b l e E f2 Hf.
      - destruct f2; cbn [trav_up] in *; destruct (_ && _); auto; discriminate.
      - destruct f2 as [|f2]; [lia|]. cbn [trav_up] in *. destruct (_ && _); auto.
        cbv zeta in *. destruct (trav_up f1 A nb _) as [[l' e']|] eqn:E'; [|discriminate].
        rewrite (IH _ _ _ E' f2) by lia. auto. }
    intros fuel Hf b Hb. eapply MONO; eauto. }
  split; [exact H2|]. split; [exact H3|]. split.
  { intros q t Ht. destruct (H4 q t Ht) as (G1 & _ & G2). auto. }
  intros d Hd. exists (Z.to_nat (d / nb)).
  assert (Hq : 0 <= d / nb) by (apply Z.div_pos; lia).
  pose proof (Z.div_mod d nb ltac:(lia)) as Ed.
  pose proof (Z.mod_pos_bound d nb ltac:(lia)) as Em. split.
  - destruct (H5 (Z.to_nat (d / nb))) as (t & Ht). { rewrite Z2Nat.id by lia. nia. }
    exists t. split; auto. destruct (H4 _ _ Ht) as (_ & _ & S1 & S2 & S3 & S4).
    rewrite Z2Nat.id in * by lia.
    set (k := Z.min nb (n - d / nb * nb)) in *.
    exists (k - 1 - d mod nb), (k - 1 - d mod nb). unfold pos. rewrite S1, S2, S3, S4. split.
    + unfold k. nia.
    + nia.
  - intros q' (t & Ht & (i & j & (Hi & Hj) & Ea)).
    destruct (H4 _ _ Ht) as (_ & G & S1 & S2 & S3 & S4). rewrite S1, S2, S3, S4 in *.
    set (k := Z.min nb (n - Z.of_nat q' * nb)) in *.
    destruct (pos_inj A (rows A - 1 - d) (cols A - 1 - d)
      (rows A - Z.of_nat q' * nb - k + i) (cols A - Z.of_nat q' * nb - k + j) Hwf) as (I1 & I2).
    + split; lia.
    + split; lia.
    + nia.
    + assert (d / nb = Z.of_nat q').
      { symmetry. apply Z.div_unique with (k - 1 - i); lia. }
      rewrite H. apply Nat2Z.id.
Qed.
