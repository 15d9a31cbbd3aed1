(* PSpSym.v: lemmas about the symmetric product with a compressed matrix and
   about the diagonal operations. *)
From Coq Require Import ZArith Lia List Bool Ring.
From Verif Require Import Mem MView MNum MSparse MSpVec SpecView SpecNum SpecSparse SpecSpVec Hoare PSum PFrame PSparse PSpconv PSpVec PSpTrm.
Import ListNotations.
Local Open Scope Z_scope.
Local Open Scope prog_scope.
Ltac lia := Lia.lia.

Section Sym.
  Context {T : Type} (K : num T).
  Hypothesis HR : is_ring K.
  Let HR' : ring_theory (zero K) (one K) (add K) (mul K) (sub K) (opp K) eq := HR.
  Add Ring KringS : HR'.
  Hypothesis HE : eqb_ok K.
  Local Notation "x +' y" := (add K x y) (at level 50, left associativity).
  Local Notation "x *' y" := (mul K x y) (at level 40, left associativity).
  Local Notation psum := (psum K).
  Local Notation lval := (lval K).

  Variables (L : Z -> bool) (A : sparse T) (n y x : Z).
  Hypothesis HA : lines A n n.
  Hypothesis HX : reg L x n.
  Hypothesis HY : reg L y n.
  Hypothesis HXY : forall i j, 0 <= i < n -> 0 <= j < n -> y + i <> x + j.
  Variable dg : Z -> Z.
  Hypothesis HS : forall j p q, 0 <= j < n -> P A j <= p -> p < q -> q < P A (j + 1) -> aget (sp_ix A) p < aget (sp_ix A) q.
  Hypothesis HD : forall j, 0 <= j < n -> P A j <= dg j < P A (j + 1) /\ aget (sp_ix A) (dg j) = j.
  Local Notation ix p := (aget (sp_ix A) p).
  Local Notation v p := (aget (sp_v A) p).
  Local Notation part := (part K A).

  Lemma x_out : forall i, 0 <= i < n -> out y n (x + i).
  Proof.
    intros i Hi. unfold out. destruct (Z_lt_dec (x + i) y); [lia|]. destruct (Z_le_dec (y + n) (x + i)); [lia|].
    exfalso. apply (HXY (x + i - y) i); lia.
  Qed.

  Lemma sym_scale_wp : forall beta m, wp (sym_scale K n y beta) L m (fun _ m' =>
    (forall i, 0 <= i < n -> m' (y + i) = beta *' m (y + i)) /\ (forall a, out y n a -> m' a = m a)).
  Proof.
    intros beta m. unfold sym_scale. destruct (eqb K beta (one K)) eqn:E; cbn [negb when].
    - apply wp_ret. apply HE in E. subst beta. split; [intros; ring|auto].
    - apply scale_wp; auto. apply (ln_n _ _ _ HA).
  Qed.

  (* the pairs over a range of positions *)
  Lemma sym_pairs_wp : forall m m0 ax s lo hi, 0 <= lo <= hi -> hi <= alen (sp_ix A) -> (forall p, lo <= p < hi -> 0 <= ix p < n) ->
    (forall i, 0 <= i < n -> m (x + i) = m0 (x + i)) ->
    wp (for_acc lo hi 1 (sym_pair K A y x ax) s) L m (fun r m' =>
      r = s +' psum lo hi (fun p => v p *' m0 (x + ix p)) /\
      (forall i, 0 <= i < n -> m' (y + i) = m (y + i) +' ax *' part lo hi i) /\ (forall a, out y n a -> m' a = m a)).
  Proof.
    intros m m0 ax s lo hi Hlo Hhi H Hx.
    apply wp_for1_acc with (I := fun q r m' => r = s +' psum lo q (fun p => v p *' m0 (x + ix p)) /\
      (forall i, 0 <= i < n -> m' (y + i) = m (y + i) +' ax *' part lo q i) /\ (forall a, out y n a -> m' a = m a)).
    - unfold PSpTrm.part. split; [rewrite psum_nil by lia; ring|]. split; [|auto]. intros i Hi. rewrite psum_nil by lia. ring.
    - intros q r m1 Hq (-> & I1 & I2). pose proof (H q Hq) as Hix. unfold sym_pair. wbind. apply aread_wp; [lia|].
      wbind. eapply rd_wp; eauto. wbind. apply aread_wp; [rewrite (ln_v _ _ _ HA); lia|].
      wbind. eapply addto_wp; eauto. apply wp_ret. split; [|split].
      + rewrite psum_snoc by lia. rewrite I2 by (apply x_out; auto). rewrite Hx by auto. ring.
      + intros i Hi. unfold PSpTrm.part. rewrite psum_snoc by lia. fold (part lo q i). destruct (Z.eqb_spec (ix q) i) as [<-|Hne].
        * rewrite mset_same, I1 by lia. ring.
        * rewrite mset_other, I1 by lia. ring.
      + intros a Ha. rewrite mset_other by (unfold out in Ha; lia). apply I2. auto.
    - intros r m1. rewrite Z.max_r by lia. auto.
  Qed.

  Local Notation lnb := (lnb A n HA dg HD).

  (* the effect of one line *)
  Definition SYM (below : bool) (alpha : T) (j : Z) (m0 m m' : Z -> T) : Prop :=
    (forall i, 0 <= i < n -> m' (y + i) = m (y + i) +'
       (if i =? j then alpha *' (if below then psum 0 (j + 1) (fun l => lval A j l *' m0 (x + l)) else psum j n (fun l => lval A j l *' m0 (x + l)))
        else if Bool.eqb below (i <? j) then alpha *' (lval A j i *' m0 (x + j)) else zero K)) /\
    (forall a, out y n a -> m' a = m a).

  Lemma lsym_wp : forall beta alpha m, sp_rows A = n -> sp_cols A = n ->
    wp (csc_mvmult_lsym K beta y alpha A x) L m (fun _ m' =>
      (forall i, 0 <= i < n -> m' (y + i) = beta *' m (y + i) +' alpha *'
         (psum 0 i (fun k => lval A k i *' m (x + k)) +' psum i n (fun l => lval A i l *' m (x + l)))) /\
      (forall a, out y n a -> m' a = m a)).
  Proof.
    intros beta alpha m Er Ec. unfold csc_mvmult_lsym. rewrite Er, Ec. pose proof (ln_n _ _ _ HA) as Hn.
    wbind. eapply wp_conseq; [apply sym_scale_wp|]. intros u m1 (S1 & S2). cbn beta.
    apply wp_for1 with (I := fun j m' =>
      (forall i, 0 <= i < n -> m' (y + i) = beta *' m (y + i) +' alpha *'
         (psum 0 (Z.min i j) (fun k => lval A k i *' m (x + k)) +' (if i <? j then psum i n (fun l => lval A i l *' m (x + l)) else zero K))) /\
      (forall a, out y n a -> m' a = m a)).
    - split; [|exact S2]. intros i Hi. rewrite S1 by auto. rewrite psum_nil by lia. replace (i <? 0) with false by lia. ring.
    - intros j m2 Hj (I1 & I2). pose proof (lnb j Hj) as B.
      assert (Ex : forall i, 0 <= i < n -> m2 (x + i) = m (x + i)) by (intros i Hi; apply I2; apply x_out; auto).
      apply wp_conseq with (P := fun _ m' => SYM false alpha j m m2 m').
      + wbind. eapply rd_wp; eauto. wbind. apply (pt_wp L A n HA); [lia|]. wbind. apply (pt_wp L A n HA); [lia|]. wbind.
        apply wp_rounds with (I := fun t k m' => k = P A j + t /\ m' = m2) (N := dg j - P A j).
        * unfold rounds. lia.
        * split; [lia|auto].
        * intros t k m3 Ht (-> & ->). wbind. apply aread_wp; [lia|]. apply wp_ret. split; [|auto].
          pose proof (ix_below A n dg HS HD j (P A j + t) Hj ltac:(lia)). lia.
        * intros t k m3 Ht (-> & ->). apply wp_ret. split; [lia|auto].
        * intros k m3 (-> & ->). replace (P A j + (dg j - P A j)) with (dg j) by lia. wbind. apply aread_wp; [lia|]. apply wp_ret.
          destruct (HD j Hj) as [_ ->]. split; [lia|auto].
        * intros k m3 (-> & ->). replace (P A j + (dg j - P A j)) with (dg j) by lia. wbind. apply aread_wp; [lia|].
          destruct (HD j Hj) as [_ Ed]. rewrite Ed, Z.eqb_refl. wbind. wbind. eapply rd_wp; eauto. wbind. apply aread_wp; [lia|].
          apply wp_ret. cbn [fst snd]. wbind.
          eapply wp_conseq; [apply (sym_pairs_wp m2 m); [lia|lia|intros p Hp; apply (ix_range A n HA j); lia|exact Ex]|].
          intros r m3 (-> & J1 & J2). cbn beta. eapply addto_wp; eauto. split.
          -- intros i Hi. assert (Hp : forall i, j <= i < n -> part (dg j + 1) (P A (j + 1)) i = if i =? j then zero K else lval A j i).
             { intros i' Hi'. destruct (Z.eqb_spec i' j).
               - apply (part_out_above K HR A n dg HS HD); lia.
               - symmetry. apply (lval_above K HR A n HA dg HS HD); lia. }
             assert (Hp' : i < j -> part (dg j + 1) (P A (j + 1)) i = zero K) by (intros; apply (part_out_above K HR A n dg HS HD); lia).
             destruct (Z.eqb_spec i j) as [->|Hne].
             ++ rewrite mset_same, J1 by lia. rewrite Hp by lia. rewrite Z.eqb_refl.
                rewrite (psum_cons K HR j n) by lia. rewrite (dot_above K HR A n HA dg HS HD j (fun l => m (x + l))) by lia.
                rewrite (lval_diag K HR A n HA dg HS HD) by lia. rewrite !Ex by lia. ring.
             ++ rewrite mset_other, J1 by lia. destruct (Z.ltb_spec i j); cbn [Bool.eqb].
                ** rewrite Hp' by lia. ring.
                ** rewrite Hp by lia. destruct (Z.eqb_spec i j); [lia|]. rewrite Ex by lia. ring.
          -- intros a Ha. rewrite mset_other by (unfold out in Ha; lia). rewrite J2 by auto. reflexivity.
      + intros u2 m3 (J1 & J2). split; [|intros a Ha; rewrite J2 by auto; auto].
        intros i Hi. rewrite J1, I1 by lia. destruct (Z.eqb_spec i j) as [->|Hne].
        * replace (j <? j) with false by lia. replace (j <? j + 1) with true by lia. replace (Z.min j (j + 1)) with j by lia. rewrite Z.min_id. ring.
        * destruct (Z.ltb_spec i j); cbn [Bool.eqb].
          -- replace (i <? j + 1) with true by lia. replace (Z.min i (j + 1)) with i by lia. replace (Z.min i j) with i by lia. ring.
          -- replace (i <? j + 1) with false by lia. replace (Z.min i (j + 1)) with (j + 1) by lia. replace (Z.min i j) with j by lia.
             rewrite psum_snoc by lia. ring.
    - intros m2. rewrite Z.max_r by lia. intros (I1 & I2). split; [|exact I2]. intros i Hi. rewrite I1 by lia.
      replace (Z.min i n) with i by lia. replace (i <? n) with true by lia. reflexivity.
  Qed.

  Lemma usym_wp : forall beta alpha m, sp_rows A = n -> sp_cols A = n ->
    wp (csc_mvmult_usym K beta y alpha A x) L m (fun _ m' =>
      (forall i, 0 <= i < n -> m' (y + i) = beta *' m (y + i) +' alpha *'
         (psum 0 (i + 1) (fun l => lval A i l *' m (x + l)) +' psum (i + 1) n (fun k => lval A k i *' m (x + k)))) /\
      (forall a, out y n a -> m' a = m a)).
  Proof.
    intros beta alpha m Er Ec. unfold csc_mvmult_usym. rewrite Er, Ec. pose proof (ln_n _ _ _ HA) as Hn.
    wbind. eapply wp_conseq; [apply sym_scale_wp|]. intros u m1 (S1 & S2). cbn beta.
    apply wp_for_down with (I := fun j m' =>
      (forall i, 0 <= i < n -> m' (y + i) = beta *' m (y + i) +' alpha *'
         (psum (Z.max (i + 1) (j + 1)) n (fun k => lval A k i *' m (x + k)) +' (if j <? i then psum 0 (i + 1) (fun l => lval A i l *' m (x + l)) else zero K))) /\
      (forall a, out y n a -> m' a = m a)).
    - split; [|exact S2]. intros i Hi. rewrite S1 by auto. rewrite psum_nil by lia. replace (n - 1 <? i) with false by lia. ring.
    - intros j m2 Hj' (I1 & I2). assert (Hj : 0 <= j < n) by lia. pose proof (lnb j Hj) as B.
      assert (Ex : forall i, 0 <= i < n -> m2 (x + i) = m (x + i)) by (intros i Hi; apply I2; apply x_out; auto).
      apply wp_conseq with (P := fun _ m' => SYM true alpha j m m2 m').
      + wbind. eapply rd_wp; eauto. wbind. apply (pt_wp L A n HA); [lia|]. wbind. apply (pt_wp L A n HA); [lia|]. wbind.
        apply wp_rounds with (I := fun t k m' => k = P A (j + 1) - 1 - t /\ m' = m2) (N := P A (j + 1) - 1 - dg j).
        * unfold rounds. lia.
        * split; [lia|auto].
        * intros t k m3 Ht (-> & ->). wbind. apply aread_wp; [lia|]. apply wp_ret. split; [|auto].
          pose proof (ix_above A n dg HS HD j (P A (j + 1) - 1 - t) Hj ltac:(lia)). lia.
        * intros t k m3 Ht (-> & ->). apply wp_ret. split; [lia|auto].
        * intros k m3 (-> & ->). replace (P A (j + 1) - 1 - (P A (j + 1) - 1 - dg j)) with (dg j) by lia. wbind. apply aread_wp; [lia|]. apply wp_ret.
          destruct (HD j Hj) as [_ ->]. split; [lia|auto].
        * intros k m3 (-> & ->). replace (P A (j + 1) - 1 - (P A (j + 1) - 1 - dg j)) with (dg j) by lia. wbind. apply aread_wp; [lia|].
          destruct (HD j Hj) as [_ Ed]. rewrite Ed, Z.eqb_refl. wbind. wbind. eapply rd_wp; eauto. wbind. apply aread_wp; [lia|].
          apply wp_ret. cbn [fst snd]. replace (dg j - 1 + 1) with (dg j) by lia. wbind.
          eapply wp_conseq; [apply (sym_pairs_wp m2 m); [lia|lia|intros p Hp; apply (ix_range A n HA j); lia|exact Ex]|].
          intros r m3 (-> & J1 & J2). cbn beta. eapply addto_wp; eauto. split.
          -- intros i Hi. pose proof (part_out_below K HR A n dg HS HD j i Hj) as Ho. pose proof (lval_below K HR A n HA dg HS HD j i Hj) as Hb.
             destruct (Z.eqb_spec i j) as [->|Hne].
             ++ rewrite mset_same, J1 by lia. rewrite Ho by lia.
                rewrite psum_snoc by lia. rewrite (dot_below K HR A n HA dg HS HD j (fun l => m (x + l))) by lia.
                rewrite (lval_diag K HR A n HA dg HS HD) by lia. rewrite !Ex by lia. ring.
             ++ rewrite mset_other, J1 by lia. destruct (Z.ltb_spec i j); cbn [Bool.eqb].
                ** rewrite Hb by lia. rewrite Ex by lia. ring.
                ** rewrite Ho by lia. ring.
          -- intros a Ha. rewrite mset_other by (unfold out in Ha; lia). rewrite J2 by auto. reflexivity.
      + intros u2 m3 (J1 & J2). split; [|intros a Ha; rewrite J2 by auto; auto].
        intros i Hi. rewrite J1, I1 by lia. destruct (Z.eqb_spec i j) as [->|Hne].
        * replace (j <? j) with false by lia. replace (j - 1 <? j) with true by lia. replace (Z.max (j + 1) (j - 1 + 1)) with (j + 1) by lia. rewrite Z.max_id. ring.
        * destruct (Z.ltb_spec i j); cbn [Bool.eqb].
          -- replace (j <? i) with false by lia. replace (j - 1 <? i) with false by lia. replace (Z.max (i + 1) (j - 1 + 1)) with j by lia. replace (Z.max (i + 1) (j + 1)) with (j + 1) by lia.
             rewrite (psum_cons K HR j n) by lia. ring.
          -- replace (j <? i) with true by lia. replace (j - 1 <? i) with true by lia. replace (Z.max (i + 1) (j - 1 + 1)) with (i + 1) by lia. replace (Z.max (i + 1) (j + 1)) with (i + 1) by lia. ring.
    - intros m2. replace (Z.min (n - 1) (0 - 1)) with (-1) by lia. intros (I1 & I2). split; [|exact I2]. intros i Hi. rewrite I1 by lia.
      replace (Z.max (i + 1) (-1 + 1)) with (i + 1) by lia. replace (-1 <? i) with true by lia. ring.
  Qed.
End Sym.
