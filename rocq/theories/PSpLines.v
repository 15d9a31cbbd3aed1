(* PSpLines.v: the matrix that armas_accum_gather builds line by line. *)
From Coq Require Import ZArith Lia List Bool Ring.
From Verif Require Import Mem MView MNum MFlags MBase MSparse MSpVec MSpAcc SpecView SpecNum SpecSparse SpecSpVec Hoare PSum PFrame PSparse PSpconv PSpVec PSpTrm PSpDiag PSpAcc.
Import ListNotations.
Local Open Scope Z_scope.
Local Open Scope prog_scope.
Ltac lia := Lia.lia.

Lemma nodup_app : forall B (a b : list B), NoDup a -> NoDup b -> (forall x, In x a -> In x b -> False) -> NoDup (a ++ b).
Proof.
  intros B a b Ha Hb H. induction a as [|x a IH]; cbn [app]; [auto|]. inversion Ha as [|? ? N1 N2]; subst. constructor.
  - intro X. apply in_app_or in X as [X|X]; [contradiction|]. apply (H x); [left; reflexivity|auto].
  - apply IH; auto. intros y Hy. apply H. right. auto.
Qed.

Lemma zr_nodup : forall lo hi, NoDup (zr lo hi).
Proof.
  intros lo hi. unfold zr. apply FinFun.Injective_map_NoDup; [intros x y H; lia|]. apply seq_NoDup.
Qed.

(* the (line, index) pairs of lines given by f and g *)
Definition seg_pairs (f g : Z -> Z) (n : Z) : list (Z * Z) := flat_map (fun j => map (fun p => (j, g p)) (zr (f j) (f (j + 1)))) (zr 0 n).

Lemma seg_in : forall f g n j k, In (j, k) (seg_pairs f g n) <-> 0 <= j < n /\ exists p, f j <= p < f (j + 1) /\ g p = k.
Proof.
  intros f g n j k. unfold seg_pairs. rewrite in_flat_map. split.
  - intros (j' & Hj & H). apply zr_in in Hj. apply in_map_iff in H as (p & E & Hp). apply zr_in in Hp. inversion E; subst. split; [auto|]. exists p. auto.
  - intros (Hj & p & Hp & <-). exists j. split; [apply zr_in; auto|]. apply in_map_iff. exists p. split; [auto|]. apply zr_in; auto.
Qed.

Lemma seg_nodup : forall f g n, 0 <= n -> (forall j, 0 <= j < n -> f j <= f (j + 1)) ->
  (forall j p q, 0 <= j < n -> f j <= p < f (j + 1) -> f j <= q < f (j + 1) -> g p = g q -> p = q) ->
  NoDup (seg_pairs f g n) /\ Z.of_nat (length (seg_pairs f g n)) = f n - f 0.
Proof.
  intros f g n Hn. pattern n. apply natlike_ind; auto.
  - intros _ _. unfold seg_pairs. rewrite zr_nil by lia. cbn. split; [constructor|lia].
  - intros i Hi IH Hm Hj. unfold Z.succ in *. destruct IH as [H1 H2]; [intros; apply Hm; lia|intros j p q H; apply Hj; lia|].
    assert (E : seg_pairs f g (i + 1) = seg_pairs f g i ++ map (fun p => (i, g p)) (zr (f i) (f (i + 1)))).
    { unfold seg_pairs. rewrite zr_snoc by lia. rewrite flat_map_snoc. reflexivity. }
    rewrite E. pose proof (Hm i ltac:(lia)) as Hmi. split.
    + apply nodup_app; auto.
      * assert (X : forall l, NoDup l -> (forall p, In p l -> f i <= p < f (i + 1)) -> NoDup (map (fun p => (i, g p)) l)).
        { induction l as [|p l IHl]; intros N H; cbn [map]; [constructor|]. inversion N as [|? ? N1 N2]; subst. constructor; [|apply IHl; auto; intros; apply H; right; auto].
          intro X. apply in_map_iff in X as (q & E' & Hq). inversion E' as [E'']. apply (Hj i) in E''; [subst; contradiction|lia|apply H; right; auto|apply H; left; auto]. }
        apply X; [apply zr_nodup|]. intros p Hp. apply zr_in in Hp. lia.
      * intros [j k] X Y. apply seg_in in X as [X _]. apply in_map_iff in Y as (p & E' & _). inversion E'. lia.
    + rewrite app_length, map_length, zr_length. lia.
Qed.

Section Build.
  Context {T : Type} (K : num T).
  Hypothesis HR : is_ring K.
  Let HR' : ring_theory (zero K) (one K) (add K) (mul K) (sub K) (opp K) eq := HR.
  Add Ring KringBu : HR'.
  Local Notation "x +' y" := (add K x y) (at level 50, left associativity).
  Local Notation "x *' y" := (mul K x y) (at level 40, left associativity).
  Local Notation lval := (lval K).

  Variable (L : Z -> bool) (n w : Z) (alpha : T) (F : Z -> Z -> T) (S : Z -> Z -> Prop) (C0 : sparse T).
  Hypothesis Hn : 0 <= n.
  Hypothesis Hptr : alen (sp_ptr C0) = n + 1.
  Hypothesis Hix : alen (sp_ix C0) = sp_size C0.
  Hypothesis Hv : alen (sp_v C0) = sp_size C0.
  Hypothesis room : forall pl : list (Z * Z), NoDup pl -> (forall i k, In (i, k) pl -> 0 <= i < n /\ 0 <= k < w /\ S i k) ->
    pl = [] \/ Z.of_nat (length pl) < sp_size C0.

  (* where line j begins when i lines have been begun *)
  Definition pp (C : sparse T) (i j : Z) : Z := if j <? i then aget (sp_ptr C) j else sp_nnz C.

  Record bld (C : sparse T) (i : Z) : Prop := mkbld {
    d_frame : exists v ptr ix nnz, C = sp_with_lines C0 v ptr ix nnz;
    d_ptr : alen (sp_ptr C) = n + 1; d_ix : alen (sp_ix C) = sp_size C0; d_v : alen (sp_v C) = sp_size C0;
    d_0 : pp C i 0 = 0;
    d_mono : forall j, 0 <= j < i -> pp C i j <= pp C i (j + 1);
    d_el : forall j p, 0 <= j < i -> pp C i j <= p < pp C i (j + 1) ->
      S j (aget (sp_ix C) p) /\ 0 <= aget (sp_ix C) p < w /\ aget (sp_v C) p = alpha *' F j (aget (sp_ix C) p);
    d_inj : forall j p q, 0 <= j < i -> pp C i j <= p < pp C i (j + 1) -> pp C i j <= q < pp C i (j + 1) -> aget (sp_ix C) p = aget (sp_ix C) q -> p = q }.

  Lemma bld_mono : forall C i j k, bld C i -> 0 <= j -> j <= k -> k <= i -> pp C i j <= pp C i k.
  Proof.
    intros C i j k H Hj Hjk Hk. replace k with (j + Z.of_nat (Z.to_nat (k - j))) in * by lia. induction (Z.to_nat (k - j)) as [|d IH].
    - replace (j + Z.of_nat 0) with j by lia. lia.
    - specialize (IH ltac:(lia) ltac:(lia)). pose proof (d_mono _ _ H (j + Z.of_nat d) ltac:(lia)).
      replace (j + Z.of_nat (Datatypes.S d)) with (j + Z.of_nat d + 1) by lia. lia.
  Qed.
  Lemma bld_last : forall C i, bld C i -> pp C i i = sp_nnz C.
  Proof. intros C i H. unfold pp. rewrite Z.ltb_irrefl. reflexivity. Qed.
  Lemma bld_nnz : forall C i, 0 <= i -> bld C i -> 0 <= sp_nnz C.
  Proof. intros C i Hi H. pose proof (bld_mono C i 0 i H ltac:(lia) Hi ltac:(lia)). rewrite (bld_last C i H), (d_0 _ _ H) in H0. exact H0. Qed.

  (* the pairs built so far, with one more *)
  Lemma bld_room : forall C i k, bld C (i + 1) -> 0 <= i < n -> 0 <= k < w -> S i k -> (forall p, pp C (i + 1) i <= p < sp_nnz C -> aget (sp_ix C) p <> k) ->
    0 <= sp_nnz C /\ sp_nnz C + 1 < sp_size C0.
  Proof.
    intros C i k H Hi Hk HS Hf. split; [apply (bld_nnz C (i + 1)); auto; lia|].
    destruct (seg_nodup (pp C (i + 1)) (aget (sp_ix C)) (i + 1) ltac:(lia) (d_mono _ _ H) (d_inj _ _ H)) as [N1 N2].
    rewrite (d_0 _ _ H), (bld_last C _ H) in N2.
    destruct (room (seg_pairs (pp C (i + 1)) (aget (sp_ix C)) (i + 1) ++ [(i, k)])) as [X|X].
    - apply nodup_snoc; auto. intro X. apply seg_in in X as (_ & p & Hp & E). rewrite (bld_last C _ H) in Hp. exact (Hf p Hp E).
    - intros a b Hab. apply in_app_or in Hab as [Hab|[Hab|[]]].
      + apply seg_in in Hab as (Ha & p & Hp & <-). destruct (d_el _ _ H a p Ha Hp) as (X1 & X2 & _). split; [lia|]. auto.
      + inversion Hab; subst. auto.
    - apply app_eq_nil in X as [_ X]. discriminate.
    - rewrite app_length in X. cbn [length] in X. lia.
  Qed.

  (* beginning a line *)
  Lemma bld_begin : forall C i, bld C i -> 0 <= i < n ->
    bld (sp_with_lines C (sp_v C) (aset (sp_ptr C) i (sp_nnz C)) (sp_ix C) (sp_nnz C)) (i + 1).
  Proof.
    intros C i H Hi.
    assert (E : forall j, 0 <= j -> pp (sp_with_lines C (sp_v C) (aset (sp_ptr C) i (sp_nnz C)) (sp_ix C) (sp_nnz C)) (i + 1) j = pp C i j).
    { intros j Hj. unfold pp. cbn [sp_with_lines sp_ptr sp_nnz]. destruct (Z.ltb_spec j (i + 1)), (Z.ltb_spec j i); try lia; try reflexivity.
      - apply aset_other. lia.
      - replace j with i by lia. apply aset_same. }
    assert (E' : pp C i (i + 1) = pp C i i) by (unfold pp; rewrite Z.ltb_irrefl; replace (i + 1 <? i) with false by lia; reflexivity).
    destruct H as [H1 H2 H3 H4 H5 H6 H7 H8]. constructor; cbn [sp_with_lines sp_ptr sp_ix sp_v]; auto.
    - destruct H1 as (v & ptr & ix & nnz & ->). do 4 eexists. reflexivity.
    - rewrite E by lia. auto.
    - intros j Hj. rewrite !E by lia. destruct (Z.eq_dec j i) as [->|]; [lia|]. apply H6. lia.
    - intros j p Hj. rewrite !E by lia. destruct (Z.eq_dec j i) as [->|]; [lia|]. apply H7. lia.
    - intros j p q Hj. rewrite !E by lia. destruct (Z.eq_dec j i) as [->|]; [lia|]. apply H8. lia.
  Qed.

  (* one more element *)
  Definition snoc (C : sparse T) (k : Z) (x : T) : sparse T :=
    sp_with_lines C (aset (sp_v C) (sp_nnz C) x) (sp_ptr C) (aset (sp_ix C) (sp_nnz C) k) (sp_nnz C + 1).
  Lemma bld_snoc : forall C i k, bld C (i + 1) -> 0 <= i < n -> 0 <= k < w -> S i k -> (forall p, pp C (i + 1) i <= p < sp_nnz C -> aget (sp_ix C) p <> k) ->
    bld (snoc C k (alpha *' F i k)) (i + 1).
  Proof.
    intros C i k H Hi Hk HS Hf. pose proof (bld_nnz C (i + 1) ltac:(lia) H) as Hnn. pose proof (bld_mono C (i + 1) i (i + 1) H ltac:(lia) ltac:(lia) ltac:(lia)) as Hl. rewrite (bld_last C _ H) in Hl.
    assert (E : forall j, 0 <= j <= i -> pp (snoc C k (alpha *' F i k)) (i + 1) j = pp C (i + 1) j).
    { intros j Hj. unfold pp. cbn [snoc sp_with_lines sp_ptr sp_nnz]. replace (j <? i + 1) with true by lia. reflexivity. }
    assert (E' : pp (snoc C k (alpha *' F i k)) (i + 1) (i + 1) = sp_nnz C + 1) by (unfold pp; rewrite Z.ltb_irrefl; reflexivity).
    assert (LO : forall j, 0 <= j < i -> pp C (i + 1) (j + 1) <= sp_nnz C).
    { intros j Hj. pose proof (bld_mono C (i + 1) (j + 1) (i + 1) H ltac:(lia) ltac:(lia) ltac:(lia)). rewrite (bld_last C _ H) in H0. exact H0. }
    pose proof (bld_last C _ H) as HL. destruct H as [H1 H2 H3 H4 H5 H6 H7 H8]. constructor.
    - destruct H1 as (v & ptr & ix & nnz & ->). do 4 eexists. reflexivity.
    - exact H2.
    - exact H3.
    - exact H4.
    - rewrite E by lia. auto.
    - intros j Hj. rewrite (E j) by lia. destruct (Z.eq_dec j i) as [->|]; [rewrite E'; lia|]. rewrite (E (j + 1)) by lia. apply H6. lia.
    - intros j p Hj Hp. cbn [snoc sp_with_lines sp_ix sp_v]. rewrite (E j) in Hp by lia. destruct (Z.eq_dec p (sp_nnz C)) as [->|Hne].
      + rewrite !aset_same. destruct (Z.eq_dec j i) as [->|Hji]; [auto|]. rewrite (E (j + 1)) in Hp by lia. specialize (LO j ltac:(lia)). lia.
      + rewrite !aset_other by auto. apply H7; auto. destruct (Z.eq_dec j i) as [->|Hji]; [rewrite E' in Hp; rewrite HL; lia|]. rewrite (E (j + 1)) in Hp by lia. auto.
    - intros j p q Hj Hp Hq. cbn [snoc sp_with_lines sp_ix sp_v]. rewrite (E j) in Hp, Hq by lia. destruct (Z.eq_dec j i) as [->|Hji].
      + rewrite E' in Hp, Hq. destruct (Z.eq_dec p (sp_nnz C)) as [->|Hp'], (Z.eq_dec q (sp_nnz C)) as [->|Hq']; auto.
        * rewrite aset_same, aset_other by auto. intro X. exfalso. apply (Hf q ltac:(lia)). auto.
        * rewrite aset_same, aset_other by auto. intro X. exfalso. apply (Hf p ltac:(lia)). auto.
        * rewrite !aset_other by auto. apply (H8 i); auto; rewrite HL; lia.
      + rewrite (E (j + 1)) in Hp, Hq by lia. specialize (LO j ltac:(lia)). rewrite !aset_other by lia. apply (H8 j); auto; lia.
  Qed.

  Lemma gather_acc_wp : forall C acc i l m, bld C i -> 0 <= i < n -> acc_ok K w acc i l (F i) -> (forall c, In c l -> S i c) ->
    wp (armas_accum_gather K C alpha acc i) L m (fun C' m' => m' = m /\ bld C' (i + 1) /\
      (forall j, 0 <= j <= i -> pp C' (i + 1) j = pp C i j) /\ (forall p, 0 <= p < sp_nnz C -> aget (sp_ix C') p = aget (sp_ix C) p) /\
      (forall k, In k l -> exists p, pp C' (i + 1) i <= p < pp C' (i + 1) (i + 1) /\ aget (sp_ix C') p = k)).
  Proof.
    intros C acc i l m H Hi HA HS. pose proof (bld_nnz C i ltac:(lia) H) as Hnn. unfold armas_accum_gather. wbind. apply awrite_wp; [rewrite (d_ptr _ _ H); lia|].
    set (C1 := sp_with_lines C (sp_v C) (aset (sp_ptr C) i (sp_nnz C)) (sp_ix C) (sp_nnz C)).
    assert (H1 : bld C1 (i + 1)) by (apply bld_begin; auto).
    apply wp_for1_acc with (I := fun t C' m' => m' = m /\ bld C' (i + 1) /\ sp_nnz C' = sp_nnz C + t /\ sp_ptr C' = sp_ptr C1 /\
      (forall p, 0 <= p < sp_nnz C -> aget (sp_ix C') p = aget (sp_ix C) p) /\
      (forall s, 0 <= s < t -> aget (sp_ix C') (sp_nnz C + s) = nth (Z.to_nat s) l 0)).
    - split; [auto|]. split; [exact H1|]. split; [cbn; lia|]. split; [auto|]. split; [auto|]. intros; lia.
    - intros t C' m' Ht (-> & B & N & EP & X1 & X2). rewrite (a_tail _ _ _ _ _ _ HA) in Ht.
      set (k := nth (Z.to_nat t) l 0). assert (Hkl : In k l) by (apply nth_In; lia). pose proof (a_in _ _ _ _ _ _ HA k Hkl) as Hk.
      assert (Epi : pp C' (i + 1) i = sp_nnz C).
      { unfold pp. replace (i <? i + 1) with true by lia. rewrite EP. apply aset_same. }
      assert (Fr : forall p, pp C' (i + 1) i <= p < sp_nnz C' -> aget (sp_ix C') p <> k).
      { rewrite Epi, N. intros p Hp. replace p with (sp_nnz C + (p - sp_nnz C)) by lia. rewrite X2 by lia. intro E. unfold k in E.
        apply (NoDup_nth l 0) in E; [lia|apply (a_nd _ _ _ _ _ _ HA)|lia|lia]. }
      destruct (bld_room C' i k B Hi Hk (HS k Hkl) Fr) as [R1 R2].
      wbind. apply aread_wp; [rewrite (a_lq _ _ _ _ _ _ HA); rewrite <- (a_tail _ _ _ _ _ _ HA) in Ht; destruct HA;
        assert (Z.of_nat (length l) <= w) by (pose proof (NoDup_incl_length a_nd (l' := zr 0 w) ltac:(intros x Hx; apply zr_in; auto)) as X; rewrite zr_length in X; lia); lia|].
      rewrite (a_q _ _ _ _ _ _ HA) by auto. fold k.
      wbind. apply awrite_wp; [rewrite (d_ix _ _ B); lia|]. wbind. apply aread_wp; [rewrite (a_lv _ _ _ _ _ _ HA); lia|].
      wbind. apply awrite_wp; [rewrite (d_v _ _ B); lia|]. rewrite (a_v _ _ _ _ _ _ HA) by auto.
      assert (Esz : sp_size C' = sp_size C0) by (destruct (d_frame _ _ B) as (? & ? & ? & ? & ->); reflexivity).
      rewrite Esz. replace (sp_nnz C' + 1 <? sp_size C0) with true by lia. apply wp_ret. split; [auto|].
      change (sp_with_lines C' (aset (sp_v C') (sp_nnz C') (alpha *' F i k)) (sp_ptr C') (aset (sp_ix C') (sp_nnz C') k) (sp_nnz C' + 1)) with (snoc C' k (alpha *' F i k)).
      split; [apply bld_snoc; auto|]. split; [cbn; lia|]. split; [exact EP|]. split.
      + intros p Hp. cbn [snoc sp_with_lines sp_ix]. rewrite aset_other by lia. auto.
      + intros s Hs. cbn [snoc sp_with_lines sp_ix]. destruct (Z.eq_dec s t) as [->|]; [rewrite N, aset_same; reflexivity|]. rewrite aset_other by lia. apply X2. lia.
    - intros C' m' (-> & B & N & EP & X1 & X2). pose proof (a_tail _ _ _ _ _ _ HA) as Et. replace (Z.max 0 (ac_tail acc)) with (ac_tail acc) in * by lia. split; [auto|]. split; [exact B|].
      assert (Epi : pp C' (i + 1) i = sp_nnz C).
      { unfold pp. replace (i <? i + 1) with true by lia. rewrite EP. apply aset_same. }
      split; [|split; [exact X1|]].
      + intros j Hj. destruct (Z.eq_dec j i) as [->|]; [rewrite Epi; symmetry; apply bld_last; auto|].
        unfold pp. rewrite EP. replace (j <? i + 1) with true by lia. replace (j <? i) with true by lia. apply aset_other. auto.
      + intros k Hk. rewrite Epi, (bld_last C' _ B). destruct (In_nth l k 0 Hk) as (s & Hs & Es). exists (sp_nnz C + Z.of_nat s). split; [lia|].
        rewrite X2 by lia. rewrite Nat2Z.id. exact Es.
  Qed.

  Lemma clear_wp : forall acc m, alen (ac_v acc) = w -> alen (ac_mark acc) = w -> alen (ac_q acc) = w -> ac_tail acc = 0 ->
    wp (armas_accum_clear acc) L m (fun acc' m' => m' = m /\ acc_ok K w acc' 0 [] (fun _ => zero K)).
  Proof.
    intros acc m E1 E2 E3 E4. unfold armas_accum_clear. wbind.
    apply wp_for1_acc with (I := fun i mk m' => m' = m /\ alen mk = w /\ forall k, 0 <= k < i -> aget mk k = -1).
    - split; [auto|]. split; [auto|]. intros; lia.
    - intros i mk m' Hi (-> & Hl & H). apply awrite_wp; [lia|]. split; [auto|]. split; [auto|]. intros k Hk.
      destruct (Z.eq_dec k i) as [->|]; [apply aset_same|]. rewrite aset_other by auto. apply H. lia.
    - intros mk m' (-> & Hl & H). apply wp_ret. split; [auto|]. constructor; cbn [ac_v ac_mark ac_q ac_tail length]; auto; try contradiction.
      + constructor.
      + intros; lia.
      + intros k Hk _. rewrite H by lia. lia.
  Qed.

  (* what the kernels leave in C *)
  Record built (C : sparse T) : Prop := mkbuilt {
    u_frame : exists v ptr ix nnz, C = sp_with_counts (sp_with_lines C0 v ptr ix nnz) nnz n (sp_kind C0);
    u_ptr : alen (sp_ptr C) = n + 1; u_ix : alen (sp_ix C) = sp_size C0; u_v : alen (sp_v C) = sp_size C0;
    u_0 : aget (sp_ptr C) 0 = 0; u_n : aget (sp_ptr C) n = sp_nnz C;
    u_mono : forall j, 0 <= j < n -> aget (sp_ptr C) j <= aget (sp_ptr C) (j + 1);
    u_el : forall j p, 0 <= j < n -> aget (sp_ptr C) j <= p < aget (sp_ptr C) (j + 1) -> S j (aget (sp_ix C) p) /\ 0 <= aget (sp_ix C) p < w;
    u_inj : forall j p q, 0 <= j < n -> aget (sp_ptr C) j <= p < aget (sp_ptr C) (j + 1) -> aget (sp_ptr C) j <= q < aget (sp_ptr C) (j + 1) ->
      aget (sp_ix C) p = aget (sp_ix C) q -> p = q;
    u_val : forall j k, 0 <= j < n -> 0 <= k < w -> lval C j k = alpha *' F j k;
    u_room : sp_nnz C = 0 \/ sp_nnz C < sp_size C0 }.

  Lemma spa_lines_wp : forall (body : Z -> accum T -> M T (accum T)) spa m,
    alen (ac_v spa) = w -> alen (ac_mark spa) = w -> alen (ac_q spa) = w -> ac_tail spa = 0 ->
    (forall i, 0 <= i < n -> adds K L w i (body i) (F i) (S i)) ->
    wp (spa_lines K C0 n alpha body n spa) L m (fun C' m' => m' = m /\ built C').
  Proof.
    intros body spa m E1 E2 E3 E4 HB. unfold spa_lines. wbind. eapply wp_conseq; [apply clear_wp; auto|]. intros spa' m' (-> & HA). cbn beta. wbind.
    apply wp_for1_acc with (I := fun i st m' => m' = m /\ bld (fst st) i /\ acc_ok K w (snd st) i [] (fun _ => zero K) /\
      (forall j k, 0 <= j < i -> 0 <= k < w -> (exists p, pp (fst st) i j <= p < pp (fst st) i (j + 1) /\ aget (sp_ix (fst st)) p = k) \/ F j k = zero K)).
    - split; [auto|]. cbn [fst snd]. split; [|split; [exact HA|intros; lia]]. constructor; auto; try (intros; lia).
      do 4 eexists; reflexivity.
    - intros i [C acc] m' Hi (-> & B & HA' & HC). cbn [fst snd] in *. wbind. eapply wp_conseq; [apply (HB i Hi acc [] _ m HA')|].
      intros acc2 m2 (-> & l & HA2 & HI). cbn beta. wbind. assert (HA3 : acc_ok K w acc2 i l (F i)) by (eapply acc_ext; [exact HA2|]; intros; cbn beta; ring).
      eapply wp_conseq; [apply (gather_acc_wp C acc2 i l m B Hi HA3)|].
      { intros c Hc. destruct (HI c Hc); [contradiction|auto]. }
      intros C' m' (-> & B' & X1 & X2 & X3). apply wp_ret. cbn [fst snd]. split; [auto|]. split; [exact B'|]. split.
      + destruct HA3 as [A1 A2 A3 A4 A5 A6 A7 A8 A9 A10 A11]. constructor; cbn [ac_v ac_mark ac_q ac_tail length]; auto; try contradiction.
        * constructor.
        * intros; lia.
        * intros k Hk _. destruct (in_dec Z.eq_dec k l) as [H|H]; [rewrite (A8 k H); lia|]. specialize (A9 k Hk H). lia.
      + intros j k Hj Hk. destruct (Z.eq_dec j i) as [->|Hne].
        * destruct (in_dec Z.eq_dec k l) as [H|H]; [left; auto|]. right. apply (a_0 _ _ _ _ _ _ HA3); auto.
        * destruct (HC j k ltac:(lia) Hk) as [(p & Hp & E)|E]; [left|right; auto]. exists p. rewrite !X1 by lia. split; [auto|]. rewrite X2; auto.
          pose proof (bld_mono C i 0 j B ltac:(lia) ltac:(lia) ltac:(lia)). pose proof (bld_mono C i (j + 1) i B ltac:(lia) ltac:(lia) ltac:(lia)).
          rewrite (d_0 _ _ B) in H. rewrite (bld_last C i B) in H0. lia.
    - intros [C acc] m' (-> & B & _ & HC). cbn [fst snd] in *. replace (Z.max 0 n) with n in * by lia. wbind. apply awrite_wp; [rewrite (d_ptr _ _ B); lia|].
      apply wp_ret. split; [auto|].
      set (C' := sp_with_counts (sp_with_lines C (sp_v C) (aset (sp_ptr C) n (sp_nnz C)) (sp_ix C) (sp_nnz C)) (sp_nnz C) n (sp_kind C)).
      assert (E : forall j, 0 <= j <= n -> aget (sp_ptr C') j = pp C n j).
      { intros j Hj. unfold pp, C'. cbn [sp_with_counts sp_with_lines sp_ptr]. destruct (Z.ltb_spec j n); [apply aset_other; lia|]. replace j with n by lia. apply aset_same. }
      pose proof (bld_last C n B) as HL. pose proof (bld_nnz C n Hn B) as Hnn.
      assert (RO : sp_nnz C = 0 \/ sp_nnz C < sp_size C0).
      { destruct (seg_nodup (pp C n) (aget (sp_ix C)) n Hn (d_mono _ _ B) (d_inj _ _ B)) as [N1 N2]. rewrite (d_0 _ _ B), HL in N2.
        destruct (room _ N1) as [X|X].
        - intros a b Hab. apply seg_in in Hab as (Ha & p & Hp & <-). destruct (d_el _ _ B a p Ha Hp) as (X1 & X2 & _). auto.
        - left. rewrite X in N2. cbn in N2. lia.
        - right. lia. }
      destruct B as [H1 H2 H3 H4 H5 H6 H7 H8]. constructor; auto.
      + unfold C'. destruct H1 as (v & ptr & ix & nnz & ->). do 4 eexists. reflexivity.
      + rewrite E by lia. auto.
      + rewrite E by lia. exact HL.
      + intros j Hj. rewrite !E by lia. auto.
      + intros j p Hj. rewrite !E by lia. intro Hp. destruct (H7 j p Hj Hp) as (Y1 & Y2 & _). auto.
      + intros j p q Hj. rewrite !E by lia. intros Hp Hq. apply (H8 j); auto.
      + intros j k Hj Hk. unfold PSpVec.lval. rewrite !E by lia. change (sp_ix C') with (sp_ix C). change (sp_v C') with (sp_v C). destruct (HC j k Hj Hk) as [(p & Hp & Ep)|E0].
        * assert (U : forall q, pp C n j <= q < pp C n (j + 1) -> q <> p -> (if aget (sp_ix C) q =? k then aget (sp_v C) q else zero K) = zero K).
          { intros q Hq Hne. destruct (Z.eqb_spec (aget (sp_ix C) q) k) as [Eq|]; [|reflexivity]. exfalso. apply Hne. apply (H8 j); auto. congruence. }
          rewrite (psum_one K HR _ _ p _ Hp U).
          rewrite Ep, Z.eqb_refl. destruct (H7 j p Hj Hp) as (_ & _ & Ev). rewrite Ep in Ev. exact Ev.
        * rewrite E0. rewrite (psum_zero K HR); [ring|]. intros p Hp. destruct (Z.eqb_spec (aget (sp_ix C) p) k) as [Ep|]; [|reflexivity].
          destruct (H7 j p Hj Hp) as (_ & _ & Ev). rewrite Ev, Ep, E0. ring.
  Qed.
End Build.
