(* PSpTrm.v: lemmas about the triangular products and solves with a compressed
   matrix.  Every kernel of the C code works on one line after the other: either
   it adds multiples of the line to the vector (scatter) or it forms the scalar
   product of the line with the vector (gather), for the part of the line before
   or after the diagonal. *)
From Coq Require Import ZArith Lia List Bool Ring Field.
From Verif Require Import Mem MView MNum MSparse MSpVec SpecView SpecNum SpecSparse SpecSpVec Hoare PSum PFrame PSparse PSpconv PSpVec.
Import ListNotations.
Local Open Scope Z_scope.
Local Open Scope prog_scope.
Ltac lia := Lia.lia.

(* a loop that makes exactly N rounds *)
Lemma wp_rounds : forall T S (cond : S -> M T bool) (body : S -> M T S) L (I : Z -> S -> (Z -> T) -> Prop) fuel N s (m : Z -> T) (Q : S -> (Z -> T) -> Prop),
  0 <= N < Z.of_nat fuel -> I 0 s m ->
  (forall t s m, 0 <= t < N -> I t s m -> wp (cond s) L m (fun b m' => b = true /\ m' = m)) ->
  (forall t s m, 0 <= t < N -> I t s m -> wp (body s) L m (fun s' m' => I (t + 1) s' m')) ->
  (forall s m, I N s m -> wp (cond s) L m (fun b m' => b = false /\ m' = m)) ->
  (forall s m, I N s m -> Q s m) ->
  wp (while_do fuel cond body s) L m Q.
Proof.
  intros T S cond body L I fuel N s m Q HN H0 Hc Hb He HQ.
  apply wp_while with (I := fun r s m => r <= N /\ I (N - r) s m) (n := N); try lia.
  - split; [lia|]. rewrite Z.sub_diag. exact H0.
  - intros r s1 m1 Hr (Hr' & HI). destruct (Z.eq_dec r 0) as [->|Hne].
    + rewrite Z.sub_0_r in HI. eapply wp_conseq; [apply He; exact HI|]. intros b m2 (-> & ->). cbn. apply HQ. exact HI.
    + eapply wp_conseq; [apply (Hc (N - r)); [lia|exact HI]|]. intros b m2 (-> & ->). cbn. split; [lia|].
      eapply wp_conseq; [apply (Hb (N - r)); [lia|exact HI]|]. intros s2 m2 H. cbn. split; [lia|]. replace (N - (r - 1)) with (N - r + 1) by lia. exact H.
Qed.

Section Body.
  Context {T : Type} (K : num T).
  Hypothesis HR : is_ring K.
  Let HR' : ring_theory (zero K) (one K) (add K) (mul K) (sub K) (opp K) eq := HR.
  Add Ring KringW : HR'.
  Local Notation "x +' y" := (add K x y) (at level 50, left associativity).
  Local Notation "x -' y" := (sub K x y) (at level 50, left associativity).
  Local Notation "x *' y" := (mul K x y) (at level 40, left associativity).
  Local Notation psum := (psum K).
  Local Notation lval := (lval K).

  Variables (L : Z -> bool) (A : sparse T) (n x : Z).
  Hypothesis HA : lines A n n.
  Hypothesis HX : reg L x n.
  (* within a line the indices ascend and the diagonal is at position dg *)
  Variable dg : Z -> Z.
  Hypothesis HS : forall j p q, 0 <= j < n -> P A j <= p -> p < q -> q < P A (j + 1) -> aget (sp_ix A) p < aget (sp_ix A) q.
  Hypothesis HD : forall j, 0 <= j < n -> P A j <= dg j < P A (j + 1) /\ aget (sp_ix A) (dg j) = j.
  Variable unit : bool.

  Local Notation ix p := (aget (sp_ix A) p).
  Local Notation v p := (aget (sp_v A) p).

  Lemma lnb : forall j, 0 <= j < n -> 0 <= P A j /\ P A j <= dg j /\ dg j < P A (j + 1) /\ P A (j + 1) <= alen (sp_ix A) /\
    alen (sp_v A) = alen (sp_ix A) /\ alen (sp_ptr A) = n + 1.
  Proof.
    intros j Hj. pose proof (HD j Hj). pose proof (ln_lo _ _ _ HA j ltac:(lia)). pose proof (ln_lo _ _ _ HA (j + 1) ltac:(lia)).
    pose proof (ln_v _ _ _ HA). pose proof (ln_ptr _ _ _ HA). lia.
  Qed.

  Lemma ix_range : forall j p, 0 <= j < n -> P A j <= p < P A (j + 1) -> 0 <= ix p < n.
  Proof. intros j p Hj Hp. apply (ln_ix _ _ _ HA j p Hj Hp). Qed.
  Lemma ix_below : forall j p, 0 <= j < n -> P A j <= p < dg j -> ix p < j.
  Proof. intros j p Hj Hp. destruct (HD j Hj) as [H1 H2]. pose proof (HS j p (dg j) Hj ltac:(lia) ltac:(lia) ltac:(lia)). lia. Qed.
  Lemma ix_above : forall j p, 0 <= j < n -> dg j < p < P A (j + 1) -> j < ix p.
  Proof. intros j p Hj Hp. destruct (HD j Hj) as [H1 H2]. pose proof (HS j (dg j) p Hj ltac:(lia) ltac:(lia) ltac:(lia)). lia. Qed.

  Definition part (lo hi i : Z) : T := psum lo hi (fun p => if ix p =? i then v p else zero K).

  Lemma lval_below : forall j i, 0 <= j < n -> i < j -> lval A j i = part (P A j) (dg j) i.
  Proof.
    intros j i Hj Hi. unfold PSpVec.lval, part. fold (P A j) (P A (j + 1)). pose proof (lnb j Hj).
    rewrite (psum_split K HR (P A j) (dg j)) by lia. rewrite (psum_zero K HR (dg j)); [ring|].
    intros p Hp. destruct (Z.eqb_spec (ix p) i); auto. exfalso. destruct (Z.eq_dec p (dg j)) as [->|Hne].
    - destruct (HD j Hj). lia.
    - pose proof (ix_above j p Hj ltac:(lia)). lia.
  Qed.
  Lemma lval_above : forall j i, 0 <= j < n -> j < i -> lval A j i = part (dg j + 1) (P A (j + 1)) i.
  Proof.
    intros j i Hj Hi. unfold PSpVec.lval, part. fold (P A j) (P A (j + 1)). pose proof (lnb j Hj).
    rewrite (psum_split K HR (P A j) (dg j + 1)) by lia. rewrite (psum_zero K HR (P A j)); [ring|].
    intros p Hp. destruct (Z.eqb_spec (ix p) i); auto. exfalso. destruct (Z.eq_dec p (dg j)) as [->|Hne].
    - destruct (HD j Hj). lia.
    - pose proof (ix_below j p Hj ltac:(lia)). lia.
  Qed.
  Lemma lval_diag : forall j, 0 <= j < n -> lval A j j = v (dg j).
  Proof.
    intros j Hj. unfold PSpVec.lval. fold (P A j) (P A (j + 1)). pose proof (lnb j Hj). destruct (HD j Hj) as [_ Ed].
    rewrite (psum_one K HR _ _ (dg j)); [rewrite Ed, Z.eqb_refl; reflexivity|lia|].
    intros q Hq Hne. destruct (Z.eqb_spec (ix q) j); auto. exfalso.
    destruct (Z_lt_dec q (dg j)); [pose proof (ix_below j q Hj ltac:(lia))|pose proof (ix_above j q Hj ltac:(lia))]; lia.
  Qed.
  Lemma part_out_below : forall j i, 0 <= j < n -> j <= i -> part (P A j) (dg j) i = zero K.
  Proof.
    intros j i Hj Hi. apply (psum_zero K HR). intros p Hp. pose proof (ix_below j p Hj Hp).
    destruct (Z.eqb_spec (ix p) i); auto. lia.
  Qed.
  Lemma part_out_above : forall j i, 0 <= j < n -> i <= j -> part (dg j + 1) (P A (j + 1)) i = zero K.
  Proof.
    intros j i Hj Hi. apply (psum_zero K HR). intros p Hp. pose proof (ix_above j p Hj ltac:(lia)).
    destruct (Z.eqb_spec (ix p) i); auto. lia.
  Qed.

  (* the scalar products with the parts of a line *)
  Lemma part_dot : forall lo hi w0 w1 (f : Z -> T), 0 <= w0 <= w1 -> (forall p, lo <= p < hi -> w0 <= ix p < w1) ->
    psum w0 w1 (fun i => part lo hi i *' f i) = psum lo hi (fun p => v p *' f (ix p)).
  Proof.
    intros lo hi w0 w1 f Hw H. unfold part, PSpVec.psum.
    erewrite vsum_ext; [|intros i Hi; rewrite <- (vsum_mul_r K HR); reflexivity].
    rewrite (vsum_swap K HR). apply vsum_ext. intros t Ht. cbn beta.
    set (p := lo + t). pose proof (H p ltac:(subst p; lia)) as Hp.
    rewrite (vsum_one K HR _ (ix p - w0)); [|lia|].
    - replace (w0 + (ix p - w0)) with (ix p) by lia. rewrite Z.eqb_refl. reflexivity.
    - intros k _ Hne. destruct (Z.eqb_spec (ix p) (w0 + k)); [lia|ring].
  Qed.
  Lemma dot_below : forall j f, 0 <= j < n -> psum 0 j (fun i => lval A j i *' f i) = psum (P A j) (dg j) (fun p => v p *' f (ix p)).
  Proof.
    intros j f Hj. rewrite <- (part_dot (P A j) (dg j) 0 j) by (try lia; intros p Hp; pose proof (ix_below j p Hj Hp);
      pose proof (lnb j Hj); pose proof (ix_range j p Hj ltac:(lia)); lia).
    apply psum_ext. intros i Hi. rewrite lval_below by lia. reflexivity.
  Qed.
  Lemma dot_above : forall j f, 0 <= j < n -> psum (j + 1) n (fun i => lval A j i *' f i) = psum (dg j + 1) (P A (j + 1)) (fun p => v p *' f (ix p)).
  Proof.
    intros j f Hj. rewrite <- (part_dot (dg j + 1) (P A (j + 1)) (j + 1) n) by (try lia; intros p Hp; pose proof (ix_above j p Hj ltac:(lia));
      pose proof (lnb j Hj); pose proof (ix_range j p Hj ltac:(lia)); lia).
    apply psum_ext. intros i Hi. rewrite lval_above by lia. reflexivity.
  Qed.

  (* the searches *)
  Lemma skip_below_wp : forall j m (Q : Z -> (Z -> T) -> Prop), 0 <= j < n -> Q (dg j) m -> wp (skip_below A (P A j) j) L m Q.
  Proof.
    intros j m Q Hj HQ. pose proof (lnb j Hj) as B. unfold skip_below.
    apply wp_rounds with (I := fun t k m' => k = P A j + t /\ m' = m) (N := dg j - P A j).
    - unfold rounds. lia.
    - split; [lia|auto].
    - intros t k m' Ht (-> & ->). wbind. apply aread_wp; [lia|]. apply wp_ret. split; [|auto].
      apply Z.ltb_lt. apply ix_below; lia.
    - intros t k m' Ht (-> & ->). apply wp_ret. split; [lia|auto].
    - intros k m' (-> & ->). wbind. apply aread_wp; [lia|]. apply wp_ret. split; [|auto].
      replace (P A j + (dg j - P A j)) with (dg j) by lia. destruct (HD j Hj) as [_ ->]. apply Z.ltb_irrefl.
    - intros k m' (-> & ->). replace (P A j + (dg j - P A j)) with (dg j) by lia. exact HQ.
  Qed.
  Lemma skip_above_wp : forall j m (Q : Z -> (Z -> T) -> Prop), 0 <= j < n -> Q (dg j) m -> wp (skip_above A (P A (j + 1) - 1) j) L m Q.
  Proof.
    intros j m Q Hj HQ. pose proof (lnb j Hj) as B. unfold skip_above.
    apply wp_rounds with (I := fun t k m' => k = P A (j + 1) - 1 - t /\ m' = m) (N := P A (j + 1) - 1 - dg j).
    - unfold rounds. lia.
    - split; [lia|auto].
    - intros t k m' Ht (-> & ->). wbind. apply aread_wp; [lia|]. apply wp_ret. split; [|auto].
      apply Z.ltb_lt. apply ix_above; lia.
    - intros t k m' Ht (-> & ->). apply wp_ret. split; [lia|auto].
    - intros k m' (-> & ->). wbind. apply aread_wp; [lia|]. apply wp_ret. split; [|auto].
      replace (P A (j + 1) - 1 - (P A (j + 1) - 1 - dg j)) with (dg j) by lia. destruct (HD j Hj) as [_ ->]. apply Z.ltb_irrefl.
    - intros k m' (-> & ->). replace (P A (j + 1) - 1 - (P A (j + 1) - 1 - dg j)) with (dg j) by lia. exact HQ.
  Qed.

  (* one scatter step and the loops over a range of positions *)
  Definition scat (m0 : Z -> T) (c : T) (lo hi : Z) (m' : Z -> T) : Prop :=
    (forall i, 0 <= i < n -> m' (x + i) = m0 (x + i) +' part lo hi i *' c) /\ (forall a, out x n a -> m' a = m0 a).

  Lemma scat_nil : forall m c lo, scat m c lo lo m.
  Proof. intros m c lo. split; [|auto]. intros i Hi. unfold part. rewrite psum_nil by lia. ring. Qed.

  Lemma scat_up : forall m0 c lo hi m1, lo <= hi -> 0 <= ix hi < n -> scat m0 c lo hi m1 ->
    scat m0 c lo (hi + 1) (mset m1 (x + ix hi) (m1 (x + ix hi) +' v hi *' c)).
  Proof.
    intros m0 c lo hi m1 Hl Hi (S1 & S2). split.
    - intros i Hi'. unfold part. rewrite psum_snoc by lia. fold (part lo hi i). destruct (Z.eqb_spec (ix hi) i) as [<-|Hne].
      + rewrite mset_same, S1 by lia. ring.
      + rewrite mset_other, S1 by lia. ring.
    - intros a Ha. unfold out in Ha. rewrite mset_other by lia. apply S2. auto.
  Qed.
  Lemma scat_down : forall m0 c lo hi m1, lo <= hi -> 0 <= ix (lo - 1) < n -> scat m0 c lo hi m1 ->
    scat m0 c (lo - 1) hi (mset m1 (x + ix (lo - 1)) (m1 (x + ix (lo - 1)) +' v (lo - 1) *' c)).
  Proof.
    intros m0 c lo hi m1 Hl Hi (S1 & S2). split.
    - intros i Hi'. unfold part. rewrite (psum_cons K HR (lo - 1)) by lia. replace (lo - 1 + 1) with lo by lia. fold (part lo hi i).
      destruct (Z.eqb_spec (ix (lo - 1)) i) as [<-|Hne].
      + rewrite mset_same, S1 by lia. ring.
      + rewrite mset_other, S1 by lia. ring.
    - intros a Ha. unfold out in Ha. rewrite mset_other by lia. apply S2. auto.
  Qed.

  Lemma mset_ext : forall (m : Z -> T) a u w, u = w -> mset m a u = mset m a w.
  Proof. intros m a u w ->. reflexivity. Qed.

  (* x[j] is not changed by a scatter over positions that do not hold j *)
  Lemma scat_keep : forall m0 c lo hi m1 j, scat m0 c lo hi m1 -> 0 <= j < n -> (forall p, lo <= p < hi -> ix p <> j) -> m1 (x + j) = m0 (x + j).
  Proof.
    intros m0 c lo hi m1 j (S1 & _) Hj H. rewrite S1 by lia. unfold part. rewrite (psum_zero K HR); [ring|].
    intros p Hp. specialize (H p Hp). destruct (Z.eqb_spec (ix p) j); [contradiction|reflexivity].
  Qed.

  Lemma sub_pair_wp : forall j p m (Q : Datatypes.unit -> (Z -> T) -> Prop), 0 <= j < n -> 0 <= p < alen (sp_ix A) -> 0 <= ix p < n ->
    Q tt (mset m (x + ix p) (m (x + ix p) -' v p *' m (x + j))) -> wp (sub_pair K A x j p) L m Q.
  Proof.
    intros j p m Q Hj Hp Hi HQ. unfold sub_pair. wbind. apply aread_wp; [lia|]. wbind. apply aread_wp; [rewrite (ln_v _ _ _ HA); lia|].
    wbind. eapply rd_wp; eauto. unfold subfrom. wbind. eapply rd_wp; eauto. eapply wr_wp; eauto.
  Qed.
  Lemma add_pair_wp : forall alpha xj p m (Q : Datatypes.unit -> (Z -> T) -> Prop), 0 <= p < alen (sp_ix A) -> 0 <= ix p < n ->
    Q tt (mset m (x + ix p) (m (x + ix p) +' v p *' (alpha *' xj))) -> wp (add_pair K A x alpha xj p) L m Q.
  Proof.
    intros alpha xj p m Q Hp Hi HQ. unfold add_pair. wbind. apply aread_wp; [lia|]. wbind. apply aread_wp; [rewrite (ln_v _ _ _ HA); lia|].
    eapply addto_wp; eauto. erewrite mset_ext; [exact HQ|]. ring.
  Qed.

  Lemma sub_up_wp : forall j lo hi m, 0 <= j < n -> 0 <= lo <= hi -> hi <= alen (sp_ix A) ->
    (forall p, lo <= p < hi -> 0 <= ix p < n /\ ix p <> j) ->
    wp (for_up lo hi 1 (sub_pair K A x j)) L m (fun _ m' => scat m (opp K (m (x + j))) lo hi m').
  Proof.
    intros j lo hi m Hj Hlo Hhi H.
    apply wp_for1 with (I := fun p m' => scat m (opp K (m (x + j))) lo p m').
    - apply scat_nil.
    - intros p m1 Hp S. pose proof (H p Hp) as [H1 H2]. apply sub_pair_wp; try lia.
      assert (E : m1 (x + j) = m (x + j)) by (eapply scat_keep; [exact S|lia|intros q Hq; apply H; lia]).
      erewrite mset_ext; [apply scat_up; [lia|lia|exact S]|]. rewrite E. ring.
    - intros m1. rewrite Z.max_r by lia. auto.
  Qed.
  Lemma sub_down_wp : forall j lo hi m, 0 <= j < n -> 0 <= lo <= hi -> hi <= alen (sp_ix A) ->
    (forall p, lo <= p < hi -> 0 <= ix p < n /\ ix p <> j) ->
    wp (for_down (hi - 1) lo (sub_pair K A x j)) L m (fun _ m' => scat m (opp K (m (x + j))) lo hi m').
  Proof.
    intros j lo hi m Hj Hlo Hhi H.
    apply wp_for_down with (I := fun p m' => scat m (opp K (m (x + j))) (p + 1) hi m').
    - replace (hi - 1 + 1) with hi by lia. apply scat_nil.
    - intros p m1 Hp S. pose proof (H p ltac:(lia)) as [H1 H2]. apply sub_pair_wp; try lia.
      assert (E : m1 (x + j) = m (x + j)) by (eapply scat_keep; [exact S|lia|intros q Hq; apply H; lia]).
      pose proof (scat_down m (opp K (m (x + j))) (p + 1) hi m1 ltac:(lia)) as D. replace (p + 1 - 1) with p in D by lia.
      replace (p - 1 + 1) with p by lia. specialize (D ltac:(lia) S). erewrite mset_ext; [exact D|]. rewrite E. ring.
    - intros m1. replace (Z.min (hi - 1) (lo - 1) + 1) with lo by lia. auto.
  Qed.
  Lemma add_up_wp : forall alpha xj lo hi m, 0 <= lo <= hi -> hi <= alen (sp_ix A) ->
    (forall p, lo <= p < hi -> 0 <= ix p < n) ->
    wp (for_up lo hi 1 (add_pair K A x alpha xj)) L m (fun _ m' => scat m (alpha *' xj) lo hi m').
  Proof.
    intros alpha xj lo hi m Hlo Hhi H.
    apply wp_for1 with (I := fun p m' => scat m (alpha *' xj) lo p m').
    - apply scat_nil.
    - intros p m1 Hp S. pose proof (H p Hp). apply add_pair_wp; try lia. apply scat_up; [lia|lia|exact S].
    - intros m1. rewrite Z.max_r by lia. auto.
  Qed.

  Lemma dot_step_wp : forall p s m (Q : T -> (Z -> T) -> Prop), 0 <= p < alen (sp_ix A) -> 0 <= ix p < n ->
    Q (s +' v p *' m (x + ix p)) m -> wp (dot_step K A x p s) L m Q.
  Proof.
    intros p s m Q Hp Hi HQ. unfold dot_step. wbind. apply aread_wp; [rewrite (ln_v _ _ _ HA); lia|]. wbind. apply aread_wp; [lia|].
    wbind. eapply rd_wp; eauto. apply wp_ret. exact HQ.
  Qed.
  Definition dot (m : Z -> T) lo hi : T := psum lo hi (fun p => v p *' m (x + ix p)).
  Lemma dot_snoc : forall m lo hi, lo <= hi -> dot m lo (hi + 1) = dot m lo hi +' v hi *' m (x + ix hi).
  Proof. intros. unfold dot. rewrite psum_snoc by lia. reflexivity. Qed.
  Lemma dot_cons : forall m lo hi, lo <= hi -> dot m (lo - 1) hi = dot m lo hi +' v (lo - 1) *' m (x + ix (lo - 1)).
  Proof. intros. unfold dot. rewrite (psum_cons K HR (lo - 1)) by lia. replace (lo - 1 + 1) with lo by lia. ring. Qed.
  Lemma dot_nil : forall m lo, dot m lo lo = zero K.
  Proof. intros. unfold dot. apply psum_nil. lia. Qed.

  Lemma dot_up_wp : forall s lo hi m, 0 <= lo <= hi -> hi <= alen (sp_ix A) -> (forall p, lo <= p < hi -> 0 <= ix p < n) ->
    wp (for_acc lo hi 1 (dot_step K A x) s) L m (fun r m' => r = s +' dot m lo hi /\ m' = m).
  Proof.
    intros s lo hi m Hlo Hhi H.
    apply wp_for1_acc with (I := fun p r m' => r = s +' dot m lo p /\ m' = m).
    - split; [|auto]. rewrite dot_nil. ring.
    - intros p r m1 Hp (-> & ->). pose proof (H p Hp). apply dot_step_wp; try lia. split; [|auto]. rewrite dot_snoc by lia. ring.
    - intros r m1. rewrite Z.max_r by lia. auto.
  Qed.

  (* x[j] -= ... over a range *)
  Lemma sub_step_wp : forall j p m (Q : Datatypes.unit -> (Z -> T) -> Prop), 0 <= j < n -> 0 <= p < alen (sp_ix A) -> 0 <= ix p < n ->
    Q tt (mset m (x + j) (m (x + j) -' v p *' m (x + ix p))) -> wp (sub_step K A x j p) L m Q.
  Proof.
    intros j p m Q Hj Hp Hi HQ. unfold sub_step. wbind. apply aread_wp; [rewrite (ln_v _ _ _ HA); lia|]. wbind. apply aread_wp; [lia|].
    wbind. eapply rd_wp; eauto. unfold subfrom. wbind. eapply rd_wp; eauto. eapply wr_wp; eauto.
  Qed.
  Definition only (j : Z) (u : T) (m m' : Z -> T) : Prop := m' (x + j) = u /\ forall a, a <> x + j -> m' a = m a.
  Lemma only_step : forall j lo p m m1, 0 <= lo <= p -> ix p <> j -> only j (m (x + j) -' dot m lo p) m m1 ->
    only j (m (x + j) -' dot m lo (p + 1)) m (mset m1 (x + j) (m1 (x + j) -' v p *' m1 (x + ix p))).
  Proof.
    intros j lo p m m1 Hl Hne (O1 & O2). split.
    - rewrite mset_same, O1, dot_snoc by lia. rewrite (O2 (x + ix p)) by lia. ring.
    - intros a Ha. rewrite mset_other by auto. apply O2. auto.
  Qed.
  Lemma sub_steps_wp : forall j lo hi m, 0 <= j < n -> 0 <= lo <= hi -> hi <= alen (sp_ix A) -> (forall p, lo <= p < hi -> 0 <= ix p < n /\ ix p <> j) ->
    wp (for_up lo hi 1 (sub_step K A x j)) L m (fun _ m' => only j (m (x + j) -' dot m lo hi) m m').
  Proof.
    intros j lo hi m Hj Hlo Hhi H.
    apply wp_for1 with (I := fun p m' => only j (m (x + j) -' dot m lo p) m m').
    - split; [|auto]. rewrite dot_nil. ring.
    - intros p m1 Hp O. pose proof (H p Hp) as [H1 H2]. apply sub_step_wp; try lia. apply only_step; [lia|auto|exact O].
    - intros m1. rewrite Z.max_r by lia. auto.
  Qed.

  (* ---------------------------------------------------------------- effects of one line *)
  (* the matrix the kernels work with: Td j i is the element of line j with index i *)
  Definition Td (j i : Z) : T := if i =? j then (if unit then one K else lval A j j) else lval A j i.
  Lemma Td_off : forall j i, i <> j -> Td j i = lval A j i.
  Proof. intros j i H. unfold Td. destruct (Z.eqb_spec i j); [contradiction|reflexivity]. Qed.
  Lemma Td_diag : forall j, 0 <= j < n -> Td j j = if unit then one K else v (dg j).
  Proof. intros j Hj. unfold Td. rewrite Z.eqb_refl. destruct unit; auto. apply lval_diag. auto. Qed.

  Definition frame (m m' : Z -> T) : Prop := forall a, out x n a -> m' a = m a.
  (* scatter, solve *)
  (* gather, solve *)
  (* scatter, multiply *)
  Definition SM (below : bool) (alpha : T) (j : Z) (m m' : Z -> T) : Prop :=
    m' (x + j) = alpha *' (Td j j *' m (x + j)) /\
    (forall i, 0 <= i < n -> i <> j -> m' (x + i) = if Bool.eqb below (i <? j) then m (x + i) +' alpha *' (lval A j i *' m (x + j)) else m (x + i)) /\
    frame m m'.
  (* gather, multiply *)
  Definition GM (s : T) (alpha : T) (j : Z) (m m' : Z -> T) : Prop := only j (alpha *' (Td j j *' m (x + j) +' s)) m m'.

  Definition below_dot (m : Z -> T) (j : Z) : T := psum 0 j (fun i => lval A j i *' m (x + i)).
  Definition above_dot (m : Z -> T) (j : Z) : T := psum (j + 1) n (fun i => lval A j i *' m (x + i)).

  Lemma only_frame : forall j u m m', 0 <= j < n -> only j u m m' -> frame m m'.
  Proof. intros j u m m' Hj (_ & H) a Ha. unfold out in Ha. apply H. lia. Qed.
  Lemma frame_trans : forall m m' m'', frame m m' -> frame m' m'' -> frame m m''.
  Proof. intros m m' m'' H H' a Ha. rewrite H' by auto. apply H. auto. Qed.
  Lemma frame_refl : forall m, frame m m.
  Proof. intros m a Ha. reflexivity. Qed.

  (* ---------------------------------------------------------------- the loops over the lines *)
  Lemma loop_SM_up : forall alpha (body : Z -> M T Datatypes.unit) m,
    (forall j m, 0 <= j < n -> wp (body j) L m (fun _ m' => SM true alpha j m m')) ->
    wp (for_up 0 n 1 body) L m (fun _ m' =>
      (forall i, 0 <= i < n -> m' (x + i) = alpha *' psum i n (fun k => Td k i *' m (x + k))) /\ frame m m').
  Proof.
    intros alpha body m HB. pose proof (ln_n _ _ _ HA) as Hn.
    apply wp_for1 with (I := fun j m' =>
      (forall i, 0 <= i < j -> m' (x + i) = alpha *' psum i j (fun k => Td k i *' m (x + k))) /\
      (forall i, j <= i < n -> m' (x + i) = m (x + i)) /\ frame m m').
    - split; [intros; lia|split; [auto|apply frame_refl]].
    - intros j m1 Hj (I1 & I2 & I3). eapply wp_conseq; [apply HB; lia|]. intros _ m2 (B1 & B2 & B3). cbn beta.
      split; [|split].
      + intros i Hi. rewrite psum_snoc by lia. destruct (Z.eq_dec i j) as [->|Hne].
        * rewrite psum_nil by lia. rewrite B1, I2 by lia. ring.
        * rewrite B2 by lia. replace (i <? j) with true by lia. cbn [Bool.eqb]. rewrite I1, (I2 j), (Td_off j i) by lia. ring.
      + intros i Hi. rewrite B2 by lia. replace (i <? j) with false by lia. cbn [Bool.eqb]. apply I2. lia.
      + eapply frame_trans; eauto.
    - intros m1. rewrite Z.max_r by lia. intros (I1 & _ & I3). auto.
  Qed.

  Lemma loop_SM_down : forall alpha (body : Z -> M T Datatypes.unit) m,
    (forall j m, 0 <= j < n -> wp (body j) L m (fun _ m' => SM false alpha j m m')) ->
    wp (for_down (n - 1) 0 body) L m (fun _ m' =>
      (forall i, 0 <= i < n -> m' (x + i) = alpha *' psum 0 (i + 1) (fun k => Td k i *' m (x + k))) /\ frame m m').
  Proof.
    intros alpha body m HB. pose proof (ln_n _ _ _ HA) as Hn.
    apply wp_for_down with (I := fun j m' =>
      (forall i, j < i < n -> m' (x + i) = alpha *' psum (j + 1) (i + 1) (fun k => Td k i *' m (x + k))) /\
      (forall i, 0 <= i <= j -> m' (x + i) = m (x + i)) /\ frame m m').
    - split; [intros; lia|split; [auto|apply frame_refl]].
    - intros j m1 Hj (I1 & I2 & I3). eapply wp_conseq; [apply HB; lia|]. intros _ m2 (B1 & B2 & B3). cbn beta.
      split; [|split].
      + intros i Hi. replace (j - 1 + 1) with j by lia. rewrite (psum_cons K HR j) by lia. destruct (Z.eq_dec i j) as [->|Hne].
        * rewrite psum_nil by lia. rewrite B1, I2 by lia. ring.
        * rewrite B2 by lia. replace (i <? j) with false by lia. cbn [Bool.eqb]. rewrite I1, (I2 j), (Td_off j i) by lia. ring.
      + intros i Hi. rewrite B2 by lia. replace (i <? j) with true by lia. cbn [Bool.eqb]. apply I2. lia.
      + eapply frame_trans; eauto.
    - intros m1. replace (Z.min (n - 1) (0 - 1)) with (-1) by lia. intros (I1 & _ & I3). split; [|exact I3]. intros i Hi. apply I1. lia.
  Qed.

  Lemma loop_GM_up : forall alpha (body : Z -> M T Datatypes.unit) m,
    (forall j m, 0 <= j < n -> wp (body j) L m (fun _ m' => GM (above_dot m j) alpha j m m')) ->
    wp (for_up 0 n 1 body) L m (fun _ m' =>
      (forall i, 0 <= i < n -> m' (x + i) = alpha *' psum i n (fun k => Td i k *' m (x + k))) /\ frame m m').
  Proof.
    intros alpha body m HB. pose proof (ln_n _ _ _ HA) as Hn.
    apply wp_for1 with (I := fun j m' =>
      (forall i, 0 <= i < j -> m' (x + i) = alpha *' psum i n (fun k => Td i k *' m (x + k))) /\
      (forall i, j <= i < n -> m' (x + i) = m (x + i)) /\ frame m m').
    - split; [intros; lia|split; [auto|apply frame_refl]].
    - intros j m1 Hj (I1 & I2 & I3). eapply wp_conseq; [apply HB; lia|]. intros u m2 B. cbn beta in B |- *.
      pose proof (only_frame j _ _ _ ltac:(lia) B) as F. destruct B as (B1 & B2). split; [|split].
      + intros i Hi. destruct (Z.eq_dec i j) as [->|Hne].
        * rewrite B1, I2 by lia. rewrite (psum_cons K HR j n) by lia. unfold above_dot. f_equal. f_equal.
          apply psum_ext. intros k Hk. rewrite I2, Td_off by lia. reflexivity.
        * rewrite B2 by lia. apply I1. lia.
      + intros i Hi. rewrite B2 by lia. apply I2. lia.
      + eapply frame_trans; eauto.
    - intros m1. rewrite Z.max_r by lia. intros (I1 & _ & I3). auto.
  Qed.

  Lemma loop_GM_down : forall alpha (body : Z -> M T Datatypes.unit) m,
    (forall j m, 0 <= j < n -> wp (body j) L m (fun _ m' => GM (below_dot m j) alpha j m m')) ->
    wp (for_down (n - 1) 0 body) L m (fun _ m' =>
      (forall i, 0 <= i < n -> m' (x + i) = alpha *' psum 0 (i + 1) (fun k => Td i k *' m (x + k))) /\ frame m m').
  Proof.
    intros alpha body m HB. pose proof (ln_n _ _ _ HA) as Hn.
    apply wp_for_down with (I := fun j m' =>
      (forall i, j < i < n -> m' (x + i) = alpha *' psum 0 (i + 1) (fun k => Td i k *' m (x + k))) /\
      (forall i, 0 <= i <= j -> m' (x + i) = m (x + i)) /\ frame m m').
    - split; [intros; lia|split; [auto|apply frame_refl]].
    - intros j m1 Hj (I1 & I2 & I3). eapply wp_conseq; [apply HB; lia|]. intros u m2 B. cbn beta in B |- *.
      pose proof (only_frame j _ _ _ ltac:(lia) B) as F. destruct B as (B1 & B2). split; [|split].
      + intros i Hi. destruct (Z.eq_dec i j) as [->|Hne].
        * rewrite B1, I2 by lia. rewrite psum_snoc by lia. unfold below_dot.
          rewrite (psum_ext K 0 j (fun k => Td j k *' m (x + k)) (fun i => lval A j i *' m1 (x + i))); [ring|].
          intros k Hk. rewrite I2, Td_off by lia. reflexivity.
        * rewrite B2 by lia. apply I1. lia.
      + intros i Hi. rewrite B2 by lia. apply I2. lia.
      + eapply frame_trans; eauto.
    - intros m1. replace (Z.min (n - 1) (0 - 1)) with (-1) by lia. intros (I1 & _ & I3). split; [|exact I3]. intros i Hi. apply I1. lia.
  Qed.

  (* ---------------------------------------------------------------- the lines of the kernels *)
  (* after x[j] has been divided, the scatter over the part of the line *)
  (* positions of one side of a line *)
  Lemma side_below : forall j p, 0 <= j < n -> P A j <= p < dg j -> 0 <= ix p < n /\ ix p <> j.
  Proof. intros j p Hj Hp. pose proof (lnb j Hj). pose proof (ix_below j p Hj Hp). pose proof (ix_range j p Hj ltac:(lia)). lia. Qed.
  Lemma side_above : forall j p, 0 <= j < n -> dg j + 1 <= p < P A (j + 1) -> 0 <= ix p < n /\ ix p <> j.
  Proof. intros j p Hj Hp. pose proof (lnb j Hj). pose proof (ix_above j p Hj ltac:(lia)). pose proof (ix_range j p Hj ltac:(lia)). lia. Qed.

  Lemma only_mset : forall j u m, only j u m (mset m (x + j) u).
  Proof. intros j u m. split; [apply mset_same|]. intros a Ha. apply mset_other. auto. Qed.
  Lemma only_id : forall j m, only j (m (x + j)) m m.
  Proof. intros j m. split; auto. Qed.

  Lemma pt_wp : forall j (m : Z -> T) (Q : Z -> (Z -> T) -> Prop), 0 <= j <= n -> Q (P A j) m -> wp (pt A j) L m Q.
  Proof. intros j m Q Hj HQ. apply aread_wp; [rewrite (ln_ptr _ _ _ HA); lia|exact HQ]. Qed.

  (* x[j] = (x[j] - s)/d *)
  Lemma dot_is_below : forall m j, 0 <= j < n -> dot m (P A j) (dg j) = below_dot m j.
  Proof. intros m j Hj. unfold dot, below_dot. rewrite (dot_below j (fun i => m (x + i))) by auto. reflexivity. Qed.
  Lemma dot_is_above : forall m j, 0 <= j < n -> dot m (dg j + 1) (P A (j + 1)) = above_dot m j.
  Proof. intros m j Hj. unfold dot, above_dot. rewrite (dot_above j (fun i => m (x + i))) by auto. reflexivity. Qed.

  (* x[j] was reduced in place, then divided *)
  (* ---------------------------------------------------------------- products *)
  (* the scatter over a part of the line that may include the diagonal, then x[j] is overwritten *)
  Lemma scat_SM : forall (below : bool) alpha j m m1 lo hi, 0 <= j < n ->
    scat m (alpha *' m (x + j)) lo hi m1 ->
    (forall i, 0 <= i < n -> i <> j -> part lo hi i = if Bool.eqb below (i <? j) then lval A j i else zero K) ->
    SM below alpha j m (mset m1 (x + j) (alpha *' (Td j j *' m (x + j)))).
  Proof.
    intros below alpha j m m1 lo hi Hj (S1 & S2) HP. split; [apply mset_same|]. split.
    - intros i Hi Hne. rewrite mset_other by lia. rewrite S1, HP by lia. destruct (Bool.eqb below (i <? j)); ring.
    - intros a Ha. unfold out in Ha. rewrite mset_other by lia. apply S2. auto.
  Qed.
  Lemma part_below_incl : forall j i, 0 <= j < n -> i <> j -> part (P A j) (dg j + 1) i = if i <? j then lval A j i else zero K.
  Proof.
    intros j i Hj Hne. pose proof (lnb j Hj). unfold part. rewrite psum_snoc by lia. fold (part (P A j) (dg j) i).
    destruct (HD j Hj) as [_ E]. rewrite E. destruct (Z.eqb_spec j i); [lia|].
    destruct (Z.ltb_spec i j); [rewrite lval_below by lia|rewrite part_out_below by lia]; ring.
  Qed.
  Lemma part_below_excl : forall j i, 0 <= j < n -> i <> j -> part (P A j) (dg j) i = if i <? j then lval A j i else zero K.
  Proof.
    intros j i Hj Hne. destruct (Z.ltb_spec i j); [rewrite lval_below by lia|rewrite part_out_below by lia]; reflexivity.
  Qed.
  Lemma part_above_excl : forall j i, 0 <= j < n -> i <> j -> part (dg j + 1) (P A (j + 1)) i = if i <? j then zero K else lval A j i.
  Proof.
    intros j i Hj Hne. destruct (Z.ltb_spec i j); [rewrite part_out_above by lia|rewrite lval_above by lia]; reflexivity.
  Qed.
  Lemma part_above_incl : forall j i, 0 <= j < n -> i <> j -> part (dg j) (P A (j + 1)) i = if i <? j then zero K else lval A j i.
  Proof.
    intros j i Hj Hne. pose proof (lnb j Hj). unfold part. rewrite (psum_cons K HR (dg j)) by lia. fold (part (dg j + 1) (P A (j + 1)) i).
    destruct (HD j Hj) as [_ E]. rewrite E. destruct (Z.eqb_spec j i); [lia|]. rewrite part_above_excl by auto. ring.
  Qed.

  (* x[j] = unit ? alpha*xj : alpha*Ae[d]*xj *)
  Lemma last_wp : forall alpha j m m1 xj (Q : Datatypes.unit -> (Z -> T) -> Prop), 0 <= j < n -> xj = m (x + j) ->
    Q tt (mset m1 (x + j) (alpha *' (Td j j *' m (x + j)))) ->
    wp (if unit then wr (x + j) (alpha *' xj)
        else (t <- at_ A (dg j) ;; if t =? j then (e <- el A (dg j) ;; wr (x + j) (alpha *' e *' xj)) else wr (x + j) (zero K))) L m1 Q.
  Proof.
    intros alpha j m m1 xj Q Hj -> HQ. pose proof (lnb j Hj). rewrite Td_diag in HQ by auto. destruct unit.
    - eapply wr_wp; eauto. erewrite mset_ext; [exact HQ|]. ring.
    - wbind. apply aread_wp; [lia|]. destruct (HD j Hj) as [_ E]. rewrite E, Z.eqb_refl. wbind. apply aread_wp; [lia|].
      eapply wr_wp; eauto. erewrite mset_ext; [exact HQ|]. ring.
  Qed.

  Theorem csc_mvmult_un_wp : forall alpha m, sp_cols A = n ->
    wp (csc_mvmult_un K x alpha A unit) L m (fun _ m' => (forall i, 0 <= i < n -> m' (x + i) = alpha *' psum i n (fun k => Td k i *' m (x + k))) /\ frame m m').
  Proof.
    intros alpha m Hc. unfold csc_mvmult_un. rewrite Hc. apply loop_SM_up. intros j m1 Hj. pose proof (lnb j Hj) as B.
    wbind. eapply rd_wp; eauto. wbind. apply pt_wp; [lia|]. wbind. apply pt_wp; [lia|]. wbind.
    apply wp_rounds with (I := fun t k m' => k = P A j + t /\ scat m1 (alpha *' m1 (x + j)) (P A j) k m') (N := dg j + 1 - P A j).
    - unfold rounds. lia.
    - split; [lia|]. apply scat_nil.
    - intros t k m2 Ht (-> & S). unfold andM. replace (P A j + t <? P A (j + 1)) with true by lia. wbind. apply aread_wp; [lia|].
      apply wp_ret. split; [|auto]. apply Z.leb_le. destruct (Z.eq_dec (P A j + t) (dg j)) as [E|E].
      + rewrite E. destruct (HD j Hj). lia.
      + pose proof (ix_below j (P A j + t) Hj ltac:(lia)). lia.
    - intros t k m2 Ht (-> & S). pose proof (ix_range j (P A j + t) Hj ltac:(lia)). wbind. apply add_pair_wp; try lia. apply wp_ret.
      split; [lia|]. apply scat_up; [lia|lia|exact S].
    - intros k m2 (-> & S). unfold andM. replace (P A j + (dg j + 1 - P A j)) with (dg j + 1) by lia.
      destruct (Z.ltb_spec (dg j + 1) (P A (j + 1))); [|apply wp_ret; auto]. wbind. apply aread_wp; [lia|]. apply wp_ret. split; [|auto].
      apply Z.leb_gt. apply ix_above; lia.
    - intros k m2 (-> & S). replace (P A j + (dg j + 1 - P A j)) with (dg j + 1) in * by lia. replace (dg j + 1 - 1) with (dg j) by lia.
      eapply last_wp; [auto|reflexivity|]. eapply scat_SM; [auto|exact S|]. intros i Hi Hne. rewrite part_below_incl by auto. destruct (i <? j); reflexivity.
  Qed.

  Theorem csr_mvmult_lt_wp : forall alpha m, sp_rows A = n ->
    wp (csr_mvmult_lt K x alpha A unit) L m (fun _ m' => (forall i, 0 <= i < n -> m' (x + i) = alpha *' psum i n (fun k => Td k i *' m (x + k))) /\ frame m m').
  Proof.
    intros alpha m Hc. unfold csr_mvmult_lt. rewrite Hc. apply loop_SM_up. intros j m1 Hj. pose proof (lnb j Hj) as B.
    wbind. eapply rd_wp; eauto. wbind. apply pt_wp; [lia|]. wbind. apply pt_wp; [lia|]. wbind.
    apply wp_rounds with (I := fun t k m' => k = P A j + t /\ scat m1 (alpha *' m1 (x + j)) (P A j) k m') (N := dg j - P A j).
    - unfold rounds. lia.
    - split; [lia|]. apply scat_nil.
    - intros t k m2 Ht (-> & S). unfold andM. replace (P A j + t <? P A (j + 1)) with true by lia. wbind. apply aread_wp; [lia|].
      apply wp_ret. split; [|auto]. apply Z.ltb_lt. apply ix_below; lia.
    - intros t k m2 Ht (-> & S). pose proof (ix_range j (P A j + t) Hj ltac:(lia)). wbind. apply add_pair_wp; try lia. apply wp_ret.
      split; [lia|]. apply scat_up; [lia|lia|exact S].
    - intros k m2 (-> & S). unfold andM. replace (P A j + (dg j - P A j)) with (dg j) by lia. replace (dg j <? P A (j + 1)) with true by lia.
      wbind. apply aread_wp; [lia|]. apply wp_ret. split; [|auto]. destruct (HD j Hj) as [_ ->]. apply Z.ltb_irrefl.
    - intros k m2 (-> & S). replace (P A j + (dg j - P A j)) with (dg j) in * by lia.
      eapply last_wp; [auto|reflexivity|]. eapply scat_SM; [auto|exact S|]. intros i Hi Hne. rewrite part_below_excl by auto. destruct (i <? j); reflexivity.
  Qed.

  Theorem csr_mvmult_ut_wp : forall alpha m, sp_rows A = n ->
    wp (csr_mvmult_ut K x alpha A unit) L m (fun _ m' => (forall i, 0 <= i < n -> m' (x + i) = alpha *' psum 0 (i + 1) (fun k => Td k i *' m (x + k))) /\ frame m m').
  Proof.
    intros alpha m Hc. unfold csr_mvmult_ut. rewrite Hc. apply loop_SM_down. intros j m1 Hj. pose proof (lnb j Hj) as B.
    wbind. eapply rd_wp; eauto. wbind. apply pt_wp; [lia|]. wbind. apply pt_wp; [lia|]. wbind.
    apply wp_rounds with (I := fun t k m' => k = P A (j + 1) - 1 - t /\ scat m1 (alpha *' m1 (x + j)) (k + 1) (P A (j + 1)) m') (N := P A (j + 1) - 1 - dg j).
    - unfold rounds. lia.
    - split; [lia|]. replace (P A (j + 1) - 1 + 1) with (P A (j + 1)) by lia. apply scat_nil.
    - intros t k m2 Ht (-> & S). unfold andM. replace (P A j <=? P A (j + 1) - 1 - t) with true by lia. wbind. apply aread_wp; [lia|].
      apply wp_ret. split; [|auto]. apply Z.ltb_lt. apply ix_above; lia.
    - intros t k m2 Ht (E & S). assert (R : 0 <= ix k < n) by (rewrite E; apply (ix_range j); lia). wbind. apply add_pair_wp; try lia. apply wp_ret.
      split; [lia|]. pose proof (scat_down m1 (alpha *' m1 (x + j)) (k + 1) (P A (j + 1)) m2 ltac:(lia)) as D.
      replace (k + 1 - 1) with k in D by lia. replace (k - 1 + 1) with k by lia. apply D; auto.
    - intros k m2 (-> & S). unfold andM. replace (P A (j + 1) - 1 - (P A (j + 1) - 1 - dg j)) with (dg j) by lia. replace (P A j <=? dg j) with true by lia.
      wbind. apply aread_wp; [lia|]. apply wp_ret. split; [|auto]. destruct (HD j Hj) as [_ ->]. apply Z.ltb_irrefl.
    - intros k m2 (-> & S). replace (P A (j + 1) - 1 - (P A (j + 1) - 1 - dg j)) with (dg j) in * by lia.
      eapply last_wp; [auto|reflexivity|]. eapply scat_SM; [auto|exact S|]. intros i Hi Hne. rewrite part_above_excl by auto. destruct (i <? j); reflexivity.
  Qed.

  Theorem csc_mvmult_ln_wp : forall alpha m, sp_cols A = n -> unit = false ->
    wp (csc_mvmult_ln K x alpha A unit) L m (fun _ m' => (forall i, 0 <= i < n -> m' (x + i) = alpha *' psum 0 (i + 1) (fun k => Td k i *' m (x + k))) /\ frame m m').
  Proof.
    intros alpha m Hc Hu. unfold csc_mvmult_ln. rewrite Hc. apply loop_SM_down. intros j m1 Hj. pose proof (lnb j Hj) as B.
    wbind. eapply rd_wp; eauto. wbind. apply pt_wp; [lia|]. wbind. replace (j + u1 unit) with j by (rewrite Hu; cbn; lia).
    apply skip_below_wp; [lia|]. wbind. apply pt_wp; [lia|]. wbind.
    eapply wp_conseq; [apply add_up_wp; try lia; intros p Hp; apply (ix_range j); lia|]. intros u2 m2 S. cbn beta in S |- *.
    eapply last_wp; [auto|reflexivity|]. eapply scat_SM; [auto|exact S|]. intros i Hi Hne. rewrite part_above_incl by auto. destruct (i <? j); reflexivity.
  Qed.

  Lemma line_from_wp : forall alpha m, unit = false ->
    wp (line_mvmult_from K n x alpha A unit) L m (fun _ m' => (forall i, 0 <= i < n -> m' (x + i) = alpha *' psum i n (fun k => Td i k *' m (x + k))) /\ frame m m').
  Proof.
    intros alpha m Hu. unfold line_mvmult_from. apply loop_GM_up. intros j m1 Hj. pose proof (lnb j Hj) as B.
    wbind. rewrite Hu at 1. apply wp_ret. wbind. apply pt_wp; [lia|]. wbind. replace (j + u1 unit) with j by (rewrite Hu; cbn; lia).
    apply skip_below_wp; [lia|]. wbind. apply pt_wp; [lia|]. wbind.
    eapply wp_conseq; [apply dot_up_wp; try lia; intros p Hp; apply (ix_range j); lia|]. intros r m2 (-> & ->). cbn beta.
    eapply wr_wp; eauto. unfold GM. erewrite mset_ext; [apply only_mset|].
    unfold dot. rewrite (psum_cons K HR (dg j)) by lia. fold (dot m1 (dg j + 1) (P A (j + 1))). rewrite dot_is_above by auto.
    destruct (HD j Hj) as [_ ->]. rewrite Td_diag by auto. rewrite Hu. ring.
  Qed.

  Lemma line_to_wp : forall alpha m,
    wp (line_mvmult_to K n x alpha A unit) L m (fun _ m' => (forall i, 0 <= i < n -> m' (x + i) = alpha *' psum 0 (i + 1) (fun k => Td i k *' m (x + k))) /\ frame m m').
  Proof.
    intros alpha m. unfold line_mvmult_to. apply loop_GM_down. intros j m1 Hj. pose proof (lnb j Hj) as B.
    wbind. apply wp_conseq with (P := fun r m' => r = (if unit then m1 (x + j) else zero K) /\ m' = m1).
    { destruct unit; [eapply rd_wp; eauto|apply wp_ret; auto]. }
    intros xv m2 (-> & ->). cbn beta. wbind. apply pt_wp; [lia|]. wbind. apply pt_wp; [lia|]. wbind.
    set (e := dg j + (if unit then 0 else 1)). assert (He : dg j <= e <= dg j + 1 /\ (unit = true -> e = dg j) /\ (unit = false -> e = dg j + 1)) by (unfold e; destruct unit; repeat split; intros; try congruence; lia).
    apply wp_rounds with (I := fun t st m' => fst st = P A j + t /\ snd st = (if unit then m1 (x + j) else zero K) +' dot m1 (P A j) (P A j + t) /\ m' = m1) (N := e - P A j).
    - unfold rounds. lia.
    - cbn [fst snd]. split; [lia|]. rewrite Z.add_0_r, dot_nil. split; [ring|auto].
    - intros t st m2 Ht (E1 & E2 & ->). rewrite E1. unfold andM. replace (P A j + t <? P A (j + 1)) with true by lia.
      wbind. apply aread_wp; [lia|]. apply wp_ret. split; [|auto]. apply Z.leb_le. destruct (Z.eq_dec (P A j + t) (dg j)) as [E|E].
      + rewrite E. destruct (HD j Hj) as [_ ->]. destruct unit; cbn; [|lia]. destruct He as (_ & He & _). specialize (He eq_refl). lia.
      + pose proof (ix_below j (P A j + t) Hj ltac:(lia)). destruct unit; cbn; lia.
    - intros t st m2 Ht (E1 & E2 & ->). rewrite E1, E2. pose proof (ix_range j (P A j + t) Hj ltac:(lia)).
      wbind. apply dot_step_wp; try lia. apply wp_ret. cbn [fst snd]. split; [lia|split; [|auto]].
      rewrite Z.add_assoc, dot_snoc by lia. ring.
    - intros st m2 (E1 & E2 & ->). rewrite E1. unfold andM. replace (P A j + (e - P A j)) with e by lia.
      destruct (Z.ltb_spec e (P A (j + 1))); [|apply wp_ret; auto]. wbind. apply aread_wp; [lia|]. apply wp_ret. split; [|auto].
      apply Z.leb_gt. destruct (Z.eq_dec e (dg j)) as [E|E].
      + rewrite E. destruct (HD j Hj) as [_ ->]. destruct unit; cbn; [lia|]. destruct He as (_ & _ & He). specialize (He eq_refl). lia.
      + pose proof (ix_above j e Hj ltac:(lia)). destruct unit; cbn; lia.
    - intros st m2 (E1 & E2 & ->). rewrite E2. replace (P A j + (e - P A j)) with e by lia. eapply wr_wp; eauto.
      unfold GM. erewrite mset_ext; [apply only_mset|]. rewrite Td_diag by auto. unfold e. destruct unit.
      + rewrite Z.add_0_r, dot_is_below by auto. ring.
      + rewrite dot_snoc by lia. rewrite dot_is_below by auto. destruct (HD j Hj) as [_ ->]. ring.
  Qed.

  (* ---------------------------------------------------------------- solving *)
  Hypothesis Hdiv : forall a d, d <> zero K -> d *' div K a d = a.
  Hypothesis Hnz : unit = true \/ forall j, 0 <= j < n -> lval A j j <> zero K.

  Definition dv (j : Z) (a : T) : T := if unit then a else div K a (v (dg j)).

  Lemma Td_dv : forall j a, 0 <= j < n -> Td j j *' dv j a = a.
  Proof.
    intros j a Hj. unfold Td, dv. rewrite Z.eqb_refl. destruct unit; [ring|].
    rewrite <- lval_diag by auto. apply Hdiv. destruct Hnz as [H|H]; [discriminate|]. apply H. auto.
  Qed.
  Definition SS (below : bool) (j : Z) (m m' : Z -> T) : Prop :=
    m' (x + j) = dv j (m (x + j)) /\
    (forall i, 0 <= i < n -> i <> j -> m' (x + i) = if Bool.eqb below (i <? j) then m (x + i) -' lval A j i *' dv j (m (x + j)) else m (x + i)) /\
    frame m m'.
  Definition GS (s : T) (j : Z) (m m' : Z -> T) : Prop := only j (dv j (m (x + j) -' s)) m m'.
  Lemma loop_SS_down : forall (body : Z -> M T Datatypes.unit) m,
    (forall j m, 0 <= j < n -> wp (body j) L m (fun _ m' => SS true j m m')) ->
    wp (for_down (n - 1) 0 body) L m (fun _ m' =>
      (forall i, 0 <= i < n -> psum i n (fun k => Td k i *' m' (x + k)) = m (x + i)) /\ frame m m').
  Proof.
    intros body m HB. pose proof (ln_n _ _ _ HA) as Hn.
    apply wp_for_down with (I := fun j m' =>
      (forall i, 0 <= i <= j -> m' (x + i) = m (x + i) -' psum (j + 1) n (fun k => Td k i *' m' (x + k))) /\
      (forall i, j < i < n -> psum i n (fun k => Td k i *' m' (x + k)) = m (x + i)) /\ frame m m').
    - split; [|split; [intros; lia|apply frame_refl]]. intros i Hi. rewrite psum_nil by lia. ring.
    - intros j m1 Hj (I1 & I2 & I3). eapply wp_conseq; [apply HB; lia|]. intros _ m2 (B1 & B2 & B3). cbn beta.
      assert (Keep : forall k, j < k < n -> m2 (x + k) = m1 (x + k)).
      { intros k Hk. rewrite B2 by lia. replace (k <? j) with false by lia. reflexivity. }
      assert (Sum : forall i lo, j < lo -> psum lo n (fun k => Td k i *' m2 (x + k)) = psum lo n (fun k => Td k i *' m1 (x + k))).
      { intros i lo Hlo. apply psum_ext. intros k Hk. rewrite Keep by lia. reflexivity. }
      split; [|split].
      + intros i Hi. replace (j - 1 + 1) with j by lia. rewrite (psum_cons K HR j n) by lia. rewrite Sum by lia.
        rewrite B2 by lia. replace (i <? j) with true by lia. cbn [Bool.eqb]. rewrite B1, I1 by lia.
        rewrite (Td_off j i) by lia. rewrite (I1 j) by lia. ring.
      + intros i Hi. destruct (Z.eq_dec i j) as [->|Hne].
        * rewrite (psum_cons K HR j n) by lia. rewrite Sum by lia. rewrite B1, Td_dv by lia. rewrite I1 by lia. ring.
        * rewrite Sum by lia. apply I2. lia.
      + eapply frame_trans; eauto.
    - intros m1. replace (Z.min (n - 1) (0 - 1)) with (-1) by lia. intros (_ & I2 & I3). split; [|exact I3]. intros i Hi. apply I2. lia.
  Qed.

  Lemma loop_SS_up : forall (body : Z -> M T Datatypes.unit) m,
    (forall j m, 0 <= j < n -> wp (body j) L m (fun _ m' => SS false j m m')) ->
    wp (for_up 0 n 1 body) L m (fun _ m' =>
      (forall i, 0 <= i < n -> psum 0 (i + 1) (fun k => Td k i *' m' (x + k)) = m (x + i)) /\ frame m m').
  Proof.
    intros body m HB. pose proof (ln_n _ _ _ HA) as Hn.
    apply wp_for1 with (I := fun j m' =>
      (forall i, j <= i < n -> m' (x + i) = m (x + i) -' psum 0 j (fun k => Td k i *' m' (x + k))) /\
      (forall i, 0 <= i < j -> psum 0 (i + 1) (fun k => Td k i *' m' (x + k)) = m (x + i)) /\ frame m m').
    - split; [|split; [intros; lia|apply frame_refl]]. intros i Hi. rewrite psum_nil by lia. ring.
    - intros j m1 Hj (I1 & I2 & I3). eapply wp_conseq; [apply HB; lia|]. intros _ m2 (B1 & B2 & B3). cbn beta.
      assert (Keep : forall k, 0 <= k < j -> m2 (x + k) = m1 (x + k)).
      { intros k Hk. rewrite B2 by lia. replace (k <? j) with true by lia. reflexivity. }
      assert (Sum : forall i hi, hi <= j -> psum 0 hi (fun k => Td k i *' m2 (x + k)) = psum 0 hi (fun k => Td k i *' m1 (x + k))).
      { intros i lo Hlo. apply psum_ext. intros k Hk. rewrite Keep by lia. reflexivity. }
      split; [|split].
      + intros i Hi. rewrite psum_snoc by lia. rewrite Sum by lia.
        rewrite B2 by lia. replace (i <? j) with false by lia. cbn [Bool.eqb]. rewrite B1, I1 by lia.
        rewrite (Td_off j i) by lia. rewrite (I1 j) by lia. ring.
      + intros i Hi. destruct (Z.eq_dec i j) as [->|Hne].
        * rewrite psum_snoc by lia. rewrite Sum by lia. rewrite B1, Td_dv by lia. rewrite I1 by lia. ring.
        * rewrite Sum by lia. apply I2. lia.
      + eapply frame_trans; eauto.
    - intros m1. rewrite Z.max_r by lia. intros (_ & I2 & I3). auto.
  Qed.

  Definition gs_down_inv (m : Z -> T) (j : Z) (m' : Z -> T) : Prop :=
      (forall i, 0 <= i <= j -> m' (x + i) = m (x + i)) /\
      (forall i, j < i < n -> psum i n (fun k => Td i k *' m' (x + k)) = m (x + i)) /\ frame m m'.
  Lemma gs_down_step : forall m j m1 m2, 0 <= j < n -> gs_down_inv m j m1 -> GS (above_dot m1 j) j m1 m2 -> gs_down_inv m (j - 1) m2.
  Proof.
    intros m j m1 m2 Hj (I1 & I2 & I3) B. pose proof (only_frame j _ _ _ ltac:(lia) B) as F. destruct B as (B1 & B2).
    assert (Keep : forall k, k <> j -> m2 (x + k) = m1 (x + k)) by (intros; apply B2; lia).
    assert (Sum : forall i lo, j < lo -> psum lo n (fun k => Td i k *' m2 (x + k)) = psum lo n (fun k => Td i k *' m1 (x + k))).
    { intros i lo Hlo. apply psum_ext. intros k Hk. rewrite Keep by lia. reflexivity. }
    split; [|split].
    - intros i Hi. rewrite Keep by lia. apply I1. lia.
    - intros i Hi. destruct (Z.eq_dec i j) as [->|Hne].
      + rewrite (psum_cons K HR j n) by lia. rewrite Sum by lia. rewrite B1, Td_dv by lia. rewrite I1 by lia.
        unfold above_dot. rewrite (psum_ext K (j + 1) n (fun k => Td j k *' m1 (x + k)) (fun i => lval A j i *' m1 (x + i))); [ring|].
        intros k Hk. rewrite Td_off by lia. reflexivity.
      + rewrite Sum by lia. apply I2. lia.
    - eapply frame_trans; eauto.
  Qed.
  Lemma gs_down_end : forall m m1, gs_down_inv m (-1) m1 ->
    (forall i, 0 <= i < n -> psum i n (fun k => Td i k *' m1 (x + k)) = m (x + i)) /\ frame m m1.
  Proof. intros m m1 (_ & I2 & I3). split; [|exact I3]. intros i Hi. apply I2. lia. Qed.
  Lemma gs_down_start : forall m, gs_down_inv m (n - 1) m.
  Proof. intros m. split; [auto|split; [intros; lia|apply frame_refl]]. Qed.

  Definition gs_up_inv (m : Z -> T) (j : Z) (m' : Z -> T) : Prop :=
      (forall i, j <= i < n -> m' (x + i) = m (x + i)) /\
      (forall i, 0 <= i < j -> psum 0 (i + 1) (fun k => Td i k *' m' (x + k)) = m (x + i)) /\ frame m m'.
  Lemma gs_up_step : forall m j m1 m2, 0 <= j < n -> gs_up_inv m j m1 -> GS (below_dot m1 j) j m1 m2 -> gs_up_inv m (j + 1) m2.
  Proof.
    intros m j m1 m2 Hj (I1 & I2 & I3) B. pose proof (only_frame j _ _ _ ltac:(lia) B) as F. destruct B as (B1 & B2).
    assert (Keep : forall k, k <> j -> m2 (x + k) = m1 (x + k)) by (intros; apply B2; lia).
    assert (Sum : forall i hi, hi <= j -> psum 0 hi (fun k => Td i k *' m2 (x + k)) = psum 0 hi (fun k => Td i k *' m1 (x + k))).
    { intros i lo Hlo. apply psum_ext. intros k Hk. rewrite Keep by lia. reflexivity. }
    split; [|split].
    - intros i Hi. rewrite Keep by lia. apply I1. lia.
    - intros i Hi. destruct (Z.eq_dec i j) as [->|Hne].
      + rewrite psum_snoc by lia. rewrite Sum by lia. rewrite B1, Td_dv by lia. rewrite I1 by lia.
        unfold below_dot. rewrite (psum_ext K 0 j (fun k => Td j k *' m1 (x + k)) (fun i => lval A j i *' m1 (x + i))); [ring|].
        intros k Hk. rewrite Td_off by lia. reflexivity.
      + rewrite Sum by lia. apply I2. lia.
    - eapply frame_trans; eauto.
  Qed.
  Lemma gs_up_start : forall m, gs_up_inv m 0 m.
  Proof. intros m. split; [auto|split; [intros; lia|apply frame_refl]]. Qed.

  Lemma scat_SS : forall (below : bool) j m m1 m2, 0 <= j < n -> only j (dv j (m (x + j))) m m1 ->
    scat m1 (opp K (m1 (x + j))) (if below then P A j else dg j + 1) (if below then dg j else P A (j + 1)) m2 ->
    SS below j m m2.
  Proof.
    intros below j m m1 m2 Hj O S. pose proof (only_frame _ _ _ _ Hj O) as F. destruct O as (O1 & O2). destruct S as (S1 & S2).
    split; [|split].
    - rewrite S1 by auto. destruct below.
      + rewrite part_out_below by lia. rewrite O1. ring.
      + rewrite part_out_above by lia. rewrite O1. ring.
    - intros i Hi Hne. rewrite S1, O1, (O2 (x + i)) by lia. destruct below.
      + destruct (Z.ltb_spec i j); cbn [Bool.eqb].
        * rewrite lval_below by lia. ring.
        * rewrite part_out_below by lia. ring.
      + destruct (Z.ltb_spec i j); cbn [Bool.eqb].
        * rewrite part_out_above by lia. ring.
        * rewrite lval_above by lia. ring.
    - eapply frame_trans; [exact F|exact S2].
  Qed.

  Lemma divide_wp : forall j m (Q : Datatypes.unit -> (Z -> T) -> Prop), 0 <= j < n ->
    (forall m', only j (dv j (m (x + j))) m m' -> Q tt m') ->
    wp (when (negb unit) (xj <- rd (x + j) ;; e <- el A (dg j) ;; wr (x + j) (div K xj e))) L m Q.
  Proof.
    intros j m Q Hj HQ. pose proof (lnb j Hj). unfold dv in HQ. destruct unit; cbn [negb when].
    - apply wp_ret. apply HQ. apply only_id.
    - wbind. eapply rd_wp; eauto. wbind. apply aread_wp; [lia|]. eapply wr_wp; eauto. apply HQ. apply only_mset.
  Qed.

  Theorem csc_mvsolve_un_wp : forall m, sp_cols A = n ->
    wp (csc_mvsolve_un K x A unit) L m (fun _ m' => (forall i, 0 <= i < n -> psum i n (fun k => Td k i *' m' (x + k)) = m (x + i)) /\ frame m m').
  Proof.
    intros m Hc. unfold csc_mvsolve_un. rewrite Hc. apply loop_SS_down. intros j m1 Hj. pose proof (lnb j Hj) as B.
    wbind. apply pt_wp; [lia|]. wbind. apply skip_above_wp; [lia|]. wbind. eapply rd_wp; eauto. wbind.
    apply wp_conseq with (P := fun _ m' => only j (dv j (m1 (x + j))) m1 m').
    { unfold dv. destruct unit; [|wbind; apply aread_wp; [lia|]]; (eapply wr_wp; eauto; apply only_mset). }
    intros u2 m2 O. cbn beta in O |- *. wbind. apply pt_wp; [lia|]. eapply wp_conseq; [apply sub_up_wp; try lia; intros p Hp; apply (side_below j p); lia|].
    intros u3 m3 S. cbn beta in S. apply (scat_SS true j m1 m2 m3 Hj O S).
  Qed.

  Theorem csr_mvsolve_lt_wp : forall m, sp_rows A = n ->
    wp (csr_mvsolve_lt K x A unit) L m (fun _ m' => (forall i, 0 <= i < n -> psum i n (fun k => Td k i *' m' (x + k)) = m (x + i)) /\ frame m m').
  Proof.
    intros m Hc. unfold csr_mvsolve_lt. rewrite Hc. apply loop_SS_down. intros j m1 Hj. pose proof (lnb j Hj) as B.
    wbind. apply pt_wp; [lia|]. wbind. apply skip_above_wp; [lia|]. wbind. apply divide_wp; [lia|]. intros m2 O.
    wbind. apply pt_wp; [lia|]. eapply wp_conseq; [apply sub_down_wp; try lia; intros p Hp; apply (side_below j p); lia|].
    intros u3 m3 S. cbn beta in S. apply (scat_SS true j m1 m2 m3 Hj O S).
  Qed.

  Theorem csc_mvsolve_ln_wp : forall m, sp_cols A = n ->
    wp (csc_mvsolve_ln K x A unit) L m (fun _ m' => (forall i, 0 <= i < n -> psum 0 (i + 1) (fun k => Td k i *' m' (x + k)) = m (x + i)) /\ frame m m').
  Proof.
    intros m Hc. unfold csc_mvsolve_ln. rewrite Hc. apply loop_SS_up. intros j m1 Hj. pose proof (lnb j Hj) as B.
    wbind. apply pt_wp; [lia|]. wbind. apply skip_below_wp; [lia|]. wbind. apply divide_wp; [lia|]. intros m2 O.
    wbind. apply pt_wp; [lia|]. eapply wp_conseq; [apply sub_up_wp; try lia; intros p Hp; apply (side_above j p); lia|].
    intros u3 m3 S. cbn beta in S. apply (scat_SS false j m1 m2 m3 Hj O S).
  Qed.

  Theorem csr_mvsolve_ut_wp : forall m, sp_rows A = n ->
    wp (csr_mvsolve_ut K x A unit) L m (fun _ m' => (forall i, 0 <= i < n -> psum 0 (i + 1) (fun k => Td k i *' m' (x + k)) = m (x + i)) /\ frame m m').
  Proof.
    intros m Hc. unfold csr_mvsolve_ut. rewrite Hc. apply loop_SS_up. intros j m1 Hj. pose proof (lnb j Hj) as B.
    wbind. apply pt_wp; [lia|]. wbind. apply skip_below_wp; [lia|]. wbind. eapply rd_wp; eauto. wbind.
    apply wp_conseq with (P := fun _ m' => only j (dv j (m1 (x + j))) m1 m').
    { unfold dv. destruct unit; [eapply wr_wp; eauto; apply only_mset|]. wbind. apply aread_wp; [lia|].
      destruct (HD j Hj) as [_ ->]. rewrite Z.eqb_refl. wbind. apply aread_wp; [lia|]. eapply wr_wp; eauto; apply only_mset. }
    intros u2 m2 O. cbn beta in O |- *. wbind. apply pt_wp; [lia|]. eapply wp_conseq; [apply sub_up_wp; try lia; intros p Hp; apply (side_above j p); lia|].
    intros u3 m3 S. cbn beta in S. apply (scat_SS false j m1 m2 m3 Hj O S).
  Qed.

  Lemma finish_wp : forall j m s, 0 <= j < n ->
    wp (xj <- rd (x + j) ;;
        if unit then wr (x + j) (xj -' s) else (e <- el A (dg j) ;; wr (x + j) (div K (xj -' s) e))) L m (fun _ m' => GS s j m m').
  Proof.
    intros j m s Hj. pose proof (lnb j Hj). wbind. eapply rd_wp; eauto. unfold GS, dv.
    destruct unit; [|wbind; apply aread_wp; [lia|]]; (eapply wr_wp; eauto; apply only_mset).
  Qed.

  Theorem csr_mvsolve_un_wp : forall m, sp_rows A = n ->
    wp (csr_mvsolve_un K x A unit) L m (fun _ m' => (forall i, 0 <= i < n -> psum i n (fun k => Td i k *' m' (x + k)) = m (x + i)) /\ frame m m').
  Proof.
    intros m Hc. unfold csr_mvsolve_un. rewrite Hc. pose proof (ln_n _ _ _ HA).
    apply wp_for_down with (I := gs_down_inv m).
    - apply gs_down_start.
    - intros j m1 Hj I1. assert (Hj' : 0 <= j < n) by lia. pose proof (lnb j Hj') as B.
      wbind. apply pt_wp; [lia|]. wbind. apply pt_wp; [lia|]. wbind.
      apply wp_rounds with (I := fun t st m' => fst st = P A (j + 1) - 1 - t /\ snd st = dot m1 (P A (j + 1) - t) (P A (j + 1)) /\ m' = m1) (N := P A (j + 1) - 1 - dg j).
      + unfold rounds. lia.
      + cbn [fst snd]. split; [lia|]. rewrite Z.sub_0_r, dot_nil. auto.
      + intros t st m2 Ht (E1 & E2 & ->). rewrite E1. unfold andM. replace (P A j <=? P A (j + 1) - 1 - t) with true by lia.
        wbind. apply aread_wp; [lia|]. apply wp_ret. split; [|auto]. apply Z.ltb_lt. apply ix_above; lia.
      + intros t st m2 Ht (E1 & E2 & ->). rewrite E1, E2. pose proof (side_above j (P A (j + 1) - 1 - t) Hj' ltac:(lia)).
        wbind. apply dot_step_wp; try lia. apply wp_ret. cbn [fst snd]. split; [lia|split; [|auto]].
        pose proof (dot_cons m1 (P A (j + 1) - t) (P A (j + 1)) ltac:(lia)) as D.
        replace (P A (j + 1) - (t + 1)) with (P A (j + 1) - t - 1) by lia. rewrite D.
        replace (P A (j + 1) - 1 - t) with (P A (j + 1) - t - 1) by lia. reflexivity.
      + intros st m2 (E1 & E2 & ->). rewrite E1. unfold andM. replace (P A (j + 1) - 1 - (P A (j + 1) - 1 - dg j)) with (dg j) by lia.
        replace (P A j <=? dg j) with true by lia. wbind. apply aread_wp; [lia|]. apply wp_ret. split; [|auto].
        destruct (HD j Hj') as [_ ->]. apply Z.ltb_irrefl.
      + intros st m2 (E1 & E2 & ->). rewrite E1, E2. replace (P A (j + 1) - 1 - (P A (j + 1) - 1 - dg j)) with (dg j) by lia.
        replace (P A (j + 1) - (P A (j + 1) - 1 - dg j)) with (dg j + 1) by lia.
        eapply wp_conseq; [apply finish_wp; auto|]. intros u3 m3 G. cbn beta in G. rewrite dot_is_above in G by auto. eapply gs_down_step; eauto.
    - intros m1. replace (Z.min (n - 1) (0 - 1)) with (-1) by lia. apply gs_down_end.
  Qed.

  Theorem csc_mvsolve_ut_wp : forall m, sp_cols A = n ->
    wp (csc_mvsolve_ut K x A unit) L m (fun _ m' => (forall i, 0 <= i < n -> psum 0 (i + 1) (fun k => Td i k *' m' (x + k)) = m (x + i)) /\ frame m m').
  Proof.
    intros m Hc. unfold csc_mvsolve_ut. rewrite Hc. pose proof (ln_n _ _ _ HA).
    apply wp_for1 with (I := gs_up_inv m).
    - apply gs_up_start.
    - intros j m1 Hj' I1. pose proof (lnb j Hj') as B.
      wbind. apply pt_wp; [lia|]. wbind. apply pt_wp; [lia|]. wbind.
      apply wp_rounds with (I := fun t st m' => fst st = P A j + t /\ snd st = dot m1 (P A j) (P A j + t) /\ m' = m1) (N := dg j - P A j).
      + unfold rounds. lia.
      + cbn [fst snd]. split; [lia|]. rewrite Z.add_0_r, dot_nil. auto.
      + intros t st m2 Ht (E1 & E2 & ->). rewrite E1. unfold andM. replace (P A j + t <? P A (j + 1) - 1) with true by lia.
        wbind. apply aread_wp; [lia|]. apply wp_ret. split; [|auto]. apply Z.ltb_lt. apply ix_below; lia.
      + intros t st m2 Ht (E1 & E2 & ->). rewrite E1, E2. pose proof (side_below j (P A j + t) Hj' ltac:(lia)).
        wbind. apply dot_step_wp; try lia. apply wp_ret. cbn [fst snd]. split; [lia|split; [|auto]].
        rewrite Z.add_assoc, dot_snoc by lia. reflexivity.
      + intros st m2 (E1 & E2 & ->). rewrite E1. unfold andM. replace (P A j + (dg j - P A j)) with (dg j) by lia.
        destruct (dg j <? P A (j + 1) - 1); [|apply wp_ret; auto]. wbind. apply aread_wp; [lia|]. apply wp_ret. split; [|auto].
        destruct (HD j Hj') as [_ ->]. apply Z.ltb_irrefl.
      + intros st m2 (E1 & E2 & ->). rewrite E1, E2. replace (P A j + (dg j - P A j)) with (dg j) by lia.
        eapply wp_conseq; [apply finish_wp; auto|]. intros u3 m3 G. cbn beta in G. rewrite dot_is_below in G by auto. eapply gs_up_step; eauto.
    - intros m1. rewrite Z.max_r by lia. intros (_ & I2 & I3). auto.
  Qed.

  Lemma only_GS : forall s j m m1 m2, only j (m (x + j) -' s) m m1 -> only j (dv j (m1 (x + j))) m1 m2 -> GS s j m m2.
  Proof.
    intros s j m m1 m2 (A1 & A2) (B1 & B2). split; [rewrite B1, A1; reflexivity|]. intros a Ha. rewrite B2 by auto. auto.
  Qed.

  Theorem csr_mvsolve_ln_wp : forall m, sp_rows A = n -> 1 <= n ->
    wp (csr_mvsolve_ln K x A unit) L m (fun _ m' => (forall i, 0 <= i < n -> psum 0 (i + 1) (fun k => Td i k *' m' (x + k)) = m (x + i)) /\ frame m m').
  Proof.
    intros m Hc Hn1. unfold csr_mvsolve_ln. rewrite Hc. pose proof (lnb 0 ltac:(lia)) as B0.
    assert (E0 : dg 0 = P A 0).
    { destruct (Z.eq_dec (dg 0) (P A 0)); auto. exfalso. pose proof (ix_below 0 (P A 0) ltac:(lia) ltac:(lia)).
      pose proof (ix_range 0 (P A 0) ltac:(lia) ltac:(lia)). lia. }
    wbind. apply wp_conseq with (P := fun _ m' => only 0 (dv 0 (m (x + 0))) m m').
    { unfold dv. destruct unit; cbn [negb when].
      - apply wp_ret. apply only_id.
      - wbind. eapply rd_wp; eauto; try lia. wbind. apply aread_wp; [lia|]. wbind. apply aread_wp; [unfold P in *; lia|].
        rewrite E0. eapply wr_wp; eauto; try lia. apply only_mset. }
    intros u1_ m1 O. cbn beta in O.
    assert (I1 : gs_up_inv m 1 m1).
    { apply (gs_up_step m 0 m m1); [lia|apply gs_up_start|]. unfold GS, below_dot. rewrite psum_nil by lia.
      replace (m (x + 0) -' zero K) with (m (x + 0)) by ring. exact O. }
    apply wp_for1 with (I := gs_up_inv m); [exact I1| |].
    - intros j m2 Hj2 I2. assert (Hj' : 0 <= j < n) by lia. pose proof (lnb j Hj') as B.
      wbind. apply pt_wp; [lia|]. wbind. apply pt_wp; [lia|]. wbind.
      apply wp_rounds with (I := fun t p m' => p = P A j + t /\ only j (m2 (x + j) -' dot m2 (P A j) p) m2 m') (N := dg j - P A j).
      + unfold rounds. lia.
      + split; [lia|]. rewrite dot_nil. replace (m2 (x + j) -' zero K) with (m2 (x + j)) by ring. apply only_id.
      + intros t p m3 Ht (-> & O3). unfold andM. replace (P A j + t <? P A (j + 1)) with true by lia.
        wbind. apply aread_wp; [lia|]. apply wp_ret. split; [|auto]. apply Z.ltb_lt. apply ix_below; lia.
      + intros t p m3 Ht (-> & O3). pose proof (side_below j (P A j + t) Hj' ltac:(lia)) as [R1 R2].
        wbind. apply sub_step_wp; try lia. apply wp_ret. split; [lia|]. apply only_step; [lia|auto|exact O3].
      + intros p m3 (-> & O3). unfold andM. replace (P A j + (dg j - P A j)) with (dg j) by lia.
        replace (dg j <? P A (j + 1)) with true by lia. wbind. apply aread_wp; [lia|]. apply wp_ret. split; [|auto].
        destruct (HD j Hj') as [_ ->]. apply Z.ltb_irrefl.
      + intros p m3 (-> & O3). replace (P A j + (dg j - P A j)) with (dg j) in * by lia.
        apply divide_wp; [lia|]. intros m4 O4. rewrite dot_is_below in O3 by auto.
        eapply gs_up_step; [auto|exact I2|]. eapply only_GS; eauto.
    - intros m2. rewrite Z.max_r by lia. intros (_ & J2 & J3). auto.
  Qed.

  Theorem csc_mvsolve_lt_wp : forall m, sp_cols A = n -> 1 <= n ->
    wp (csc_mvsolve_lt K x A unit) L m (fun _ m' => (forall i, 0 <= i < n -> psum i n (fun k => Td i k *' m' (x + k)) = m (x + i)) /\ frame m m').
  Proof.
    intros m Hc Hn1. unfold csc_mvsolve_lt. rewrite Hc. cbn zeta.
    wbind. apply pt_wp; [lia|]. wbind. apply skip_below_wp; [lia|]. wbind. apply divide_wp; [lia|]. intros m1 O.
    assert (I1 : gs_down_inv m (n - 2) m1).
    { replace (n - 2) with (n - 1 - 1) by lia. apply (gs_down_step m (n - 1) m m1); [lia|apply gs_down_start|]. unfold GS, above_dot. rewrite psum_nil by lia.
      replace (m (x + (n - 1)) -' zero K) with (m (x + (n - 1))) by ring. exact O. }
    apply wp_for_down with (I := gs_down_inv m); [exact I1| |].
    - intros j m2 Hj2 I2. assert (Hj' : 0 <= j < n) by lia. pose proof (lnb j Hj') as B.
      wbind. apply pt_wp; [lia|]. wbind. apply skip_below_wp; [lia|]. wbind. apply pt_wp; [lia|]. wbind.
      eapply wp_conseq; [apply sub_steps_wp; try lia; intros p Hp; apply (side_above j p); lia|]. intros u3 m3 O3. cbn beta in O3 |- *.
      apply divide_wp; [lia|]. intros m4 O4. rewrite dot_is_above in O3 by auto.
      eapply gs_down_step; [auto|exact I2|]. eapply only_GS; eauto.
    - intros m2. replace (Z.min (n - 2) (0 - 1)) with (-1) by lia. apply gs_down_end.
  Qed.

End Body.
