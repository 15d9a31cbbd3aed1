(* PSpAcc.v: lemmas about the sparse accumulator and the matrices built from it. *)
From Coq Require Import ZArith Lia List Bool Ring.
From Verif Require Import Mem MView MNum MFlags MBase MSparse MSpVec MSpAcc SpecView SpecNum SpecSparse SpecSpVec Hoare PSum PFrame PSparse PSpconv PSpVec PSpTrm PSpDiag.
Import ListNotations.
Local Open Scope Z_scope.
Local Open Scope prog_scope.
Ltac lia := Lia.lia.

Lemma nodup_room : forall l w k, NoDup l -> (forall c, In c l -> 0 <= c < w) -> ~ In k l -> 0 <= k < w -> Z.of_nat (length l) < w.
Proof.
  intros l w k N H Hk Hr. assert (X : (length (k :: l) <= length (zr 0 w))%nat).
  { apply NoDup_incl_length; [constructor; auto|]. intros c [->|Hc]; apply zr_in; auto. }
  rewrite zr_length in X. cbn [length] in X. lia.
Qed.

Lemma nodup_snoc : forall B (l : list B) k, NoDup l -> ~ In k l -> NoDup (l ++ [k]).
Proof.
  intros B l k N H. induction l as [|a l IH]; cbn [app]; [constructor; auto|].
  inversion N as [|? ? N1 N2]; subst. constructor; [|apply IH; auto; intro; apply H; right; auto].
  intro X. apply in_app_or in X as [X|[<-|[]]]; [contradiction|]. apply H. left. reflexivity.
Qed.

Section Acc.
  Context {T : Type} (K : num T).
  Hypothesis HR : is_ring K.
  Let HR' : ring_theory (zero K) (one K) (add K) (mul K) (sub K) (opp K) eq := HR.
  Add Ring KringAc : HR'.
  Local Notation "x +' y" := (add K x y) (at level 50, left associativity).
  Local Notation "x *' y" := (mul K x y) (at level 40, left associativity).
  Local Notation psum := (psum K).
  Local Notation lval := (lval K).

  Variable (L : Z -> bool) (w : Z).

  (* the accumulator while line i is formed: the indices l have been met and the
     sums are f *)
  Record acc_ok (acc : accum T) (i : Z) (l : list Z) (f : Z -> T) : Prop := mkacc_ok {
    a_lv : alen (ac_v acc) = w; a_lm : alen (ac_mark acc) = w; a_lq : alen (ac_q acc) = w;
    a_nd : NoDup l; a_in : forall k, In k l -> 0 <= k < w;
    a_tail : ac_tail acc = Z.of_nat (length l);
    a_q : forall t, 0 <= t < Z.of_nat (length l) -> aget (ac_q acc) t = nth (Z.to_nat t) l 0;
    a_mark : forall k, In k l -> aget (ac_mark acc) k = i;
    a_free : forall k, 0 <= k < w -> ~ In k l -> aget (ac_mark acc) k < i;
    a_v : forall k, In k l -> aget (ac_v acc) k = f k;
    a_0 : forall k, 0 <= k < w -> ~ In k l -> f k = zero K }.

  (* a piece of program that adds g to the sums of line i and meets no other
     indices than those of S *)
  Definition adds (i : Z) (body : accum T -> M T (accum T)) (g : Z -> T) (S : Z -> Prop) : Prop :=
    forall acc l f (m : Z -> T), acc_ok acc i l f ->
      wp (body acc) L m (fun acc' m' => m' = m /\ exists l', acc_ok acc' i l' (fun c => f c +' g c) /\ (forall c, In c l' -> In c l \/ S c)).

  Lemma acc_ext : forall acc i l f g, acc_ok acc i l f -> (forall c, 0 <= c < w -> f c = g c) -> acc_ok acc i l g.
  Proof.
    intros acc i l f g H E. destruct H. constructor; auto.
    - intros k Hk. rewrite <- E; auto.
    - intros k Hk Hn. rewrite <- E; auto.
  Qed.

  Lemma adds_ext : forall i body g g' (S S' : Z -> Prop), adds i body g S -> (forall c, 0 <= c < w -> g c = g' c) ->
    (forall c, 0 <= c < w -> S c -> S' c) -> adds i body g' S'.
  Proof.
    intros i body g g' S S' H E ES acc l f m HA. eapply wp_conseq; [apply (H acc l f m HA)|].
    intros acc' m' (-> & l' & H1 & H2). split; [auto|]. exists l'. split.
    - eapply acc_ext; [exact H1|]. intros c Hc. cbn beta. rewrite (E c Hc). reflexivity.
    - intros c Hc. destruct (H2 c Hc); auto. right. apply ES; auto. apply (a_in _ _ _ _ H1 c Hc).
  Qed.

  Lemma adds_ret : forall i, adds i (fun acc => ret acc) (fun _ => zero K) (fun _ => False).
  Proof.
    intros i acc l f m HA. apply wp_ret. split; [auto|]. exists l. split; [|auto].
    eapply acc_ext; [exact HA|]. intros. cbn beta. ring.
  Qed.

  Lemma adds_seq : forall i b1 b2 g1 g2 S1 S2, adds i b1 g1 S1 -> adds i b2 g2 S2 ->
    adds i (fun acc => bind (b1 acc) b2) (fun c => g1 c +' g2 c) (fun c => S1 c \/ S2 c).
  Proof.
    intros i b1 b2 g1 g2 S1 S2 H1 H2 acc l f m HA. apply wp_bind. eapply wp_conseq; [apply (H1 acc l f m HA)|].
    intros acc1 m1 (-> & l1 & A1 & I1). eapply wp_conseq; [apply (H2 acc1 l1 _ m A1)|].
    intros acc2 m2 (-> & l2 & A2 & I2). split; [auto|]. exists l2. split.
    - eapply acc_ext; [exact A2|]. intros. cbn beta. ring.
    - intros c Hc. destruct (I2 c Hc) as [H|H]; [destruct (I1 c H)|]; auto.
  Qed.

  (* a read before it *)
  Lemma adds_rd : forall i B (rdp : M T B) (v : B) body g S, (forall m (Q : B -> (Z -> T) -> Prop), Q v m -> wp rdp L m Q) ->
    adds i (body v) g S -> adds i (fun acc => bind rdp (fun x => body x acc)) g S.
  Proof. intros i B rdp v body g S Hr H acc l f m HA. apply wp_bind. apply Hr. apply H. exact HA. Qed.

  Lemma adds_for : forall i lo hi body g (S : Z -> Z -> Prop), (forall p, lo <= p < hi -> adds i (body p) (g p) (S p)) ->
    adds i (fun acc => for_acc lo hi 1 body acc) (fun c => psum lo hi (fun p => g p c)) (fun c => exists p, lo <= p < hi /\ S p c).
  Proof.
    intros i lo hi body g S H acc l f m HA.
    apply wp_for1_acc with (I := fun p acc' m' => m' = m /\ exists l', acc_ok acc' i l' (fun c => f c +' psum lo p (fun q => g q c)) /\
      (forall c, In c l' -> In c l \/ exists q, lo <= q < p /\ S q c)).
    - split; [auto|]. exists l. split; [|auto]. eapply acc_ext; [exact HA|]. intros c Hc. cbn beta. rewrite (psum_nil K) by lia. ring.
    - intros p acc' m' Hp (-> & l' & HA' & HI). eapply wp_conseq; [apply (H p Hp acc' l' _ m HA')|].
      intros acc2 m2 (-> & l2 & A2 & I2). split; [auto|]. exists l2. split.
      + eapply acc_ext; [exact A2|]. intros c Hc. cbn beta. rewrite (psum_snoc K) by lia. ring.
      + intros c Hc. destruct (I2 c Hc) as [H0|H0].
        * destruct (HI c H0) as [|(q & Hq & HS)]; auto. right. exists q. split; [lia|auto].
        * right. exists p. split; [lia|auto].
    - intros acc' m' (-> & l' & HA' & HI). split; [auto|]. exists l'. split.
      + eapply acc_ext; [exact HA'|]. intros c Hc. cbn beta. f_equal. destruct (Z_le_dec lo hi).
        * replace (Z.max lo hi) with hi by lia. reflexivity.
        * rewrite !(psum_nil K) by lia. reflexivity.
      + intros c Hc. destruct (HI c Hc) as [|(q & Hq & HS)]; auto. right. exists q. split; [lia|auto].
  Qed.

  Lemma adds_one : forall i k v, 0 <= k < w -> adds i (fun acc => addpos K acc k v i) (fun c => if c =? k then v else zero K) (fun c => c = k).
  Proof.
    intros i k v Hk acc l f m HA. pose proof HA as [A1 A2 A3 A4 A5 A6 A7 A8 A9 A10 A11]. unfold addpos. wbind. apply aread_wp; [lia|].
    destruct (in_dec Z.eq_dec k l) as [Hin|Hout].
    - rewrite (A8 k Hin). rewrite Z.ltb_irrefl. wbind. apply aread_wp; [lia|]. wbind. apply awrite_wp; [lia|]. apply wp_ret. split; [auto|].
      exists l. split; [|auto]. constructor; cbn [ac_v ac_mark ac_q ac_tail]; auto.
      + intros c Hc. destruct (Z.eqb_spec c k) as [->|Hne]; [rewrite aset_same, A10 by auto; reflexivity|]. rewrite aset_other, A10 by auto. ring.
      + intros c Hc Hn. destruct (Z.eqb_spec c k) as [->|Hne]; [contradiction|]. rewrite A11 by auto. ring.
    - pose proof (A9 k Hk Hout) as Hm. pose proof (nodup_room l w k A4 A5 Hout Hk) as Hroom. apply Z.ltb_lt in Hm. rewrite Hm.
      wbind. apply awrite_wp; [lia|]. wbind. apply awrite_wp; [lia|]. wbind. apply awrite_wp; [lia|]. apply wp_ret. split; [auto|].
      exists (l ++ [k]). split; [|intros c Hc; apply in_app_or in Hc as [|[<-|[]]]; auto].
      assert (IN : forall c, In c (l ++ [k]) <-> In c l \/ c = k) by (intro c; rewrite in_app_iff; cbn; intuition).
      constructor; cbn [ac_v ac_mark ac_q ac_tail]; auto.
      + apply nodup_snoc; auto.
      + intros c Hc. apply IN in Hc as [Hc| ->]; auto.
      + rewrite app_length. cbn [length]. lia.
      + rewrite app_length. cbn [length]. intros t Ht. destruct (Z.eq_dec t (ac_tail acc)) as [E|Hne].
        * rewrite E, aset_same. rewrite A6, Nat2Z.id, nth_middle. reflexivity.
        * rewrite aset_other by auto. rewrite A7 by lia. rewrite app_nth1 by lia. reflexivity.
      + intros c Hc. destruct (Z.eq_dec c k) as [->|Hne]; [apply aset_same|]. rewrite aset_other by auto. apply A8. apply IN in Hc as [|]; [auto|contradiction].
      + intros c Hc Hn. rewrite aset_other by (intros ->; apply Hn, IN; auto). apply A9; auto. intro; apply Hn, IN; auto.
      + intros c Hc. destruct (Z.eqb_spec c k) as [->|Hne].
        * rewrite aset_same. rewrite A11 by auto. ring.
        * rewrite aset_other by auto. rewrite A10 by (apply IN in Hc as [|]; [auto|contradiction]). ring.
      + intros c Hc Hn. destruct (Z.eqb_spec c k) as [->|Hne]; [exfalso; apply Hn, IN; auto|]. rewrite A11 by (auto; intro; apply Hn, IN; auto). ring.
  Qed.

  (* the elements of a line, times c *)
  Lemma adds_line : forall (A : sparse T) n c i, lines A n w -> 0 <= i < n ->
    adds i (add_line K A c i) (fun k => c *' lval A i k) (in_line A i).
  Proof.
    intros A n c i HA Hi. pose proof (drange A n w HA i Hi) as B. unfold add_line.
    eapply adds_ext.
    - apply adds_rd with (v := P A i). { intros; eapply dpt; eauto; lia. } apply adds_rd with (v := P A (i + 1)). { intros; eapply dpt; eauto; lia. }
      apply adds_for. intros p Hp. apply adds_rd with (v := aget (sp_v A) p). { intros m Q HQ. apply aread_wp; [rewrite (ln_v _ _ _ HA); lia|exact HQ]. }
      apply adds_rd with (v := aget (sp_ix A) p). { intros m Q HQ. apply aread_wp; [lia|exact HQ]. }
      apply adds_one. apply (ln_ix _ _ _ HA i p Hi Hp).
    - intros k Hk. cbn beta. unfold PSpVec.lval. fold (P A i) (P A (i + 1)). rewrite <- (psum_mul_l K HR). apply psum_ext. intros p Hp.
      rewrite (Z.eqb_sym k). destruct (aget (sp_ix A) p =? k); [reflexivity|ring].
    - intros k Hk (p & Hp & ->). exists p. auto.
  Qed.

  Lemma adds_scatter : forall (A : sparse T) n c j i, lines A n w -> 0 <= j < n ->
    adds i (fun acc => armas_accum_scatter K acc A j c i) (fun k => c *' lval A j k) (in_line A j).
  Proof.
    intros A n c j i HA Hj. pose proof (drange A n w HA j Hj) as B. unfold armas_accum_scatter.
    eapply adds_ext.
    - apply adds_rd with (v := P A j). { intros; eapply dpt; eauto; lia. } apply adds_rd with (v := P A (j + 1)). { intros; eapply dpt; eauto; lia. }
      apply adds_for. intros p Hp.
      apply adds_rd with (v := aget (sp_ix A) (P A j + p)). { intros m Q HQ. apply aread_wp; [lia|exact HQ]. }
      apply adds_rd with (v := aget (sp_v A) (P A j + p)). { intros m Q HQ. apply aread_wp; [rewrite (ln_v _ _ _ HA); lia|exact HQ]. }
      apply adds_one. apply (ln_ix _ _ _ HA j _ Hj). lia.
    - intros k Hk. cbn beta. unfold PSpVec.lval. fold (P A j) (P A (j + 1)). rewrite <- (psum_mul_l K HR). unfold PSpVec.psum. rewrite Z.sub_0_r. apply vsum_ext. intros p Hp.
      rewrite Z.add_0_l, (Z.eqb_sym k). destruct (aget (sp_ix A) (P A j + p) =? k); [reflexivity|ring].
    - intros k Hk (p & Hp & ->). exists (P A j + p). split; [lia|auto].
  Qed.

  (* the position found by armassp_nz *)
  Lemma nz_none_wp : forall (A : sparse T) n w' j k m (Q : Z -> (Z -> T) -> Prop), lines A n w' -> 0 <= j < n -> P A (j + 1) < alen (sp_ix A) ->
    (forall p, P A j <= p < P A (j + 1) -> aget (sp_ix A) p < k) -> Q (-1) m -> wp (armassp_nz A j k) L m Q.
  Proof.
    intros A n w' j k m Q HA Hj Hs G HQ. pose proof (drange A n w' HA j Hj) as B. unfold armassp_nz.
    wbind. eapply dpt; eauto; [lia|]. wbind. eapply dpt; eauto; [lia|]. wbind.
    apply wp_rounds with (I := fun t st m' => m' = m /\ st = (P A j + t, None)) (N := P A (j + 1) - P A j).
    - unfold rounds. lia.
    - split; [auto|]. rewrite Z.add_0_r. reflexivity.
    - intros t st m' Ht (-> & ->). cbn [fst snd]. wbind. apply aread_wp; [lia|]. apply wp_ret. split; [|auto].
      specialize (G (P A j + t) ltac:(lia)). apply andb_true_intro. split; [apply Z.leb_le|apply Z.ltb_lt]; lia.
    - intros t st m' Ht (-> & ->). cbn [fst snd]. wbind. apply aread_wp; [lia|]. specialize (G (P A j + t) ltac:(lia)).
      replace (aget (sp_ix A) (P A j + t) =? k) with false by lia. apply wp_ret. split; [auto|]. f_equal. lia.
    - intros st m' (-> & ->). cbn [fst snd]. wbind. apply aread_wp; [lia|]. apply wp_ret. split; [|auto].
      replace (P A j + (P A (j + 1) - P A j) <? P A (j + 1)) with false by lia. apply andb_false_r.
    - intros st m' (-> & ->). cbn [fst snd]. apply wp_ret. exact HQ.
  Qed.

  (* the lines of A ascend and there is a free place behind the last one *)
  Definition sorted_lines (A : sparse T) (n : Z) : Prop :=
    forall j p q, 0 <= j < n -> P A j <= p -> p < q -> q < P A (j + 1) -> aget (sp_ix A) p < aget (sp_ix A) q.
  Definition spare (A : sparse T) (n : Z) : Prop := forall j, 0 <= j < n -> P A (j + 1) < alen (sp_ix A).

  Lemma nz_full_wp : forall (A : sparse T) n w' j k m (Q : Z -> (Z -> T) -> Prop), lines A n w' -> sorted_lines A n -> spare A n -> 0 <= j < n ->
    (forall p, P A j <= p < P A (j + 1) -> aget (sp_ix A) p = k -> lval A j k = aget (sp_v A) p -> Q p m) ->
    (~ in_line A j k -> lval A j k = zero K -> Q (-1) m) -> wp (armassp_nz A j k) L m Q.
  Proof.
    intros A n w' j k m Q HA HS Hsp Hj Q1 Q2.
    assert (NIL : (forall p, P A j <= p < P A (j + 1) -> aget (sp_ix A) p <> k) -> ~ in_line A j k /\ lval A j k = zero K).
    { intro H. split; [intros (p & Hp & E); exact (H p Hp E)|]. unfold PSpVec.lval. apply (psum_zero K HR). intros p Hp. fold (P A j) (P A (j + 1)) in Hp.
      specialize (H p Hp). replace (aget (sp_ix A) p =? k) with false by lia. reflexivity. }
    destruct (Z_le_dec (P A (j + 1)) (P A j)) as [He|He].
    { eapply nz_none_wp; eauto; [intros; lia|]. destruct (NIL ltac:(intros; lia)); auto. }
    destruct (Z_lt_dec (aget (sp_ix A) (P A (j + 1) - 1)) k) as [Hlt|Hge].
    - assert (G : forall p, P A j <= p < P A (j + 1) -> aget (sp_ix A) p < k).
      { intros p Hp. destruct (Z.eq_dec p (P A (j + 1) - 1)) as [->|Hne]; [auto|]. pose proof (HS j p (P A (j + 1) - 1) Hj ltac:(lia) ltac:(lia) ltac:(lia)). lia. }
      eapply nz_none_wp; eauto. destruct (NIL ltac:(intros p Hp; specialize (G p Hp); lia)); auto.
    - destruct (first_ex A n j k (P A (j + 1) - 1) Hj ltac:(lia) ltac:(lia)) as (g & Hg).
      eapply nz_wp; eauto. destruct Hg as (G1 & G2 & G3). destruct (Z.eqb_spec (aget (sp_ix A) g) k) as [E|E].
      + apply Q1; auto. unfold PSpVec.lval. fold (P A j) (P A (j + 1)). rewrite (psum_one K HR _ _ g); auto; [rewrite E, Z.eqb_refl; reflexivity|].
        intros q Hq Hne. destruct (Z_lt_dec q g).
        * specialize (G3 q ltac:(lia)). replace (aget (sp_ix A) q =? k) with false by lia. reflexivity.
        * pose proof (HS j g q Hj ltac:(lia) ltac:(lia) ltac:(lia)). replace (aget (sp_ix A) q =? k) with false by lia. reflexivity.
      + destruct (NIL) as [N1 N2]; auto. intros p Hp. destruct (Z_lt_dec p g); [specialize (G3 p ltac:(lia)); lia|].
        destruct (Z.eq_dec p g) as [->|]; [auto|]. pose proof (HS j g p Hj ltac:(lia) ltac:(lia) ltac:(lia)). lia.
  Qed.

  (* an optional update with the element (j, k) of A *)
  Lemma adds_nz : forall (A : sparse T) n w' j k i body (g : T -> Z -> T) (S : Z -> Prop), lines A n w' -> sorted_lines A n -> spare A n -> 0 <= j < n ->
    (forall e, adds i (body e) (g e) S) -> (forall c, g (zero K) c = zero K) ->
    adds i (fun acc => p <- armassp_nz A j k ;; if p <? 0 then ret acc else (e <- el A p ;; body e acc)) (g (lval A j k)) (fun c => in_line A j k /\ S c).
  Proof.
    intros A n w' j k i body g S HA HS Hsp Hj HB H0 acc l f m HO. pose proof (drange A n w' HA j Hj) as B. wbind.
    eapply nz_full_wp; eauto.
    - intros p Hp E EV. replace (p <? 0) with false by lia. wbind. apply aread_wp; [rewrite (ln_v _ _ _ HA); lia|].
      eapply wp_conseq; [apply (HB _ acc l f m HO)|]. intros acc' m' (-> & l' & H1 & H2). split; [auto|]. exists l'. rewrite EV. split; [exact H1|].
      intros c Hc. destruct (H2 c Hc); auto. right. split; [exists p; auto|auto].
    - intros HN EV. cbn. apply wp_ret. split; [auto|]. exists l. split; [|auto]. eapply acc_ext; [exact HO|]. intros c Hc. cbn beta. rewrite EV, H0. ring.
  Qed.

  Lemma adds_across : forall (A : sparse T) n w' c i, lines A n w' -> sorted_lines A n -> spare A n -> n <= w ->
    adds i (add_across K A n c i) (fun k => if k <? n then c *' lval A k i else zero K) (fun k => k < n /\ in_line A k i).
  Proof.
    intros A n w' c i HA HS Hsp Hn. unfold add_across. eapply adds_ext.
    - apply adds_for with (g := fun j k => if k =? j then c *' lval A j i else zero K) (S := fun j k => in_line A j i /\ k = j). intros j Hj.
      apply (adds_nz A n w' j i i (fun e acc => addpos K acc j (c *' e) i) (fun e k => if k =? j then c *' e else zero K)); auto.
      + intro e. apply adds_one. lia.
      + intro k. destruct (k =? j); ring.
    - intros k Hk. cbn beta. destruct (Z.ltb_spec k n).
      + rewrite (psum_one K HR _ _ k); [rewrite Z.eqb_refl; reflexivity|lia|]. intros q Hq Hne. replace (k =? q) with false by lia. reflexivity.
      + apply (psum_zero K HR). intros q Hq. replace (k =? q) with false by lia. reflexivity.
    - intros k Hk (p & Hp & HI & ->). split; [lia|auto].
  Qed.

  (* ---------------------------------------------------------------- products *)

  Lemma adds_mult_scatter : forall (A B : sparse T) nA wA nB i, lines A nA wA -> lines B nB w -> wA <= nB -> 0 <= i < nA ->
    adds i (mult_scatter K A B i) (fun c => vsum K wA (fun k => lval A i k *' lval B k c)) (fun c => exists k, in_line A i k /\ in_line B k c).
  Proof.
    intros A B nA wA nB i HA HB Hw Hi. pose proof (drange A nA wA HA i Hi) as Bd. unfold mult_scatter. eapply adds_ext.
    - apply adds_rd with (v := P A i). { intros; eapply dpt; eauto; lia. } apply adds_rd with (v := P A (i + 1)). { intros; eapply dpt; eauto; lia. }
      apply adds_for. intros p Hp. pose proof (ln_ix _ _ _ HA i p Hi Hp) as Hx.
      apply adds_rd with (v := aget (sp_ix A) p). { intros m Q HQ. apply aread_wp; [lia|exact HQ]. }
      apply adds_rd with (v := aget (sp_v A) p). { intros m Q HQ. apply aread_wp; [rewrite (ln_v _ _ _ HA); lia|exact HQ]. }
      apply (adds_scatter B nB); auto. lia.
    - intros c Hc. cbn beta. symmetry. rewrite (line_dot K HR A (fun k => lval B k c) i wA); [reflexivity|]. intros p Hp. apply (ln_ix _ _ _ HA i p Hi Hp).
    - intros c Hc (p & Hp & H). exists (aget (sp_ix A) p). split; [exists p; auto|auto].
  Qed.

  Lemma adds_mult_across : forall (A B : sparse T) n wA i, lines A n wA -> sorted_lines A n -> spare A n -> lines B n w ->
    adds i (mult_across K A B n i) (fun c => vsum K n (fun j => lval A j i *' lval B j c)) (fun c => exists j, 0 <= j < n /\ in_line A j i /\ in_line B j c).
  Proof.
    intros A B n wA i HA HS Hsp HB. unfold mult_across. eapply adds_ext.
    - apply adds_for with (g := fun j c => lval A j i *' lval B j c) (S := fun j c => in_line A j i /\ in_line B j c). intros j Hj.
      apply (adds_nz A n wA j i i (fun e acc => armas_accum_scatter K acc B j e i) (fun e c => e *' lval B j c)); auto.
      + intro e. apply (adds_scatter B n); auto.
      + intro k. ring.
    - intros c Hc. cbn beta. unfold PSpVec.psum. rewrite Z.sub_0_r. apply vsum_ext. intros. rewrite Z.add_0_l. reflexivity.
    - intros c Hc (p & Hp & H). exists p. auto.
  Qed.

  Lemma adds_mult_tt : forall (A B : sparse T) nA wA nB wB n i, lines A nA wA -> sorted_lines A nA -> spare A nA -> lines B nB wB -> wB <= nA -> n <= nB -> n = w ->
    adds i (mult_tt K A B n i) (fun c => vsum K wB (fun k => lval B c k *' lval A k i)) (fun c => exists k, in_line B c k /\ in_line A k i).
  Proof.
    intros A B nA wA nB wB n i HA HS Hsp HB Hw Hn En. unfold mult_tt. eapply adds_ext.
    - apply adds_for with (g := fun j c => if c =? j then vsum K wB (fun k => lval B j k *' lval A k i) else zero K) (S := fun j c => c = j /\ exists k, in_line B j k /\ in_line A k i). intros j Hj.
      pose proof (drange B nB wB HB j ltac:(lia)) as Bd. eapply adds_ext.
      + apply adds_rd with (v := P B j). { intros; eapply dpt; eauto; lia. } apply adds_rd with (v := P B (j + 1)). { intros; eapply dpt; eauto; lia. }
        apply adds_for with (g := fun p c => if c =? j then aget (sp_v B) p *' lval A (aget (sp_ix B) p) i else zero K) (S := fun p c => in_line A (aget (sp_ix B) p) i /\ c = j).
        intros p Hp. pose proof (ln_ix _ _ _ HB j p ltac:(lia) Hp) as Hx.
        apply adds_rd with (v := aget (sp_ix B) p). { intros m Q HQ. apply aread_wp; [lia|exact HQ]. }
        eapply adds_ext.
        * apply (adds_nz A nA wA (aget (sp_ix B) p) i i (fun e acc => y <- el B p ;; addpos K acc j (e *' y) i) (fun e c => if c =? j then e *' aget (sp_v B) p else zero K)); auto; [lia| |].
          { intro e. apply adds_rd with (v := aget (sp_v B) p). { intros m Q HQ. apply aread_wp; [rewrite (ln_v _ _ _ HB); lia|exact HQ]. } apply adds_one. lia. }
          { intro c. destruct (c =? j); ring. }
        * intros c Hc. cbn beta. destruct (c =? j); ring.
        * auto.
      + intros c Hc. cbn beta. destruct (Z.eqb_spec c j).
        * symmetry. rewrite (line_dot K HR B (fun k => lval A k i) j wB); [reflexivity|]. intros p Hp. apply (ln_ix _ _ _ HB j p ltac:(lia) Hp).
        * apply (psum_zero K HR). reflexivity.
      + intros c Hc (p & Hp & HI & ->). split; [auto|]. exists (aget (sp_ix B) p). split; [exists p; auto|auto].
    - intros c Hc. cbn beta. rewrite (psum_one K HR _ _ c); [rewrite Z.eqb_refl; reflexivity|lia|]. intros q Hq Hne. replace (c =? q) with false by lia. reflexivity.
    - intros c Hc (p & Hp & -> & H). exact H.
  Qed.

  (* the product of the rest of two lines *)
  Definition rest (A B : sparse T) (a a1 b b1 : Z) : T :=
    psum a a1 (fun p => psum b b1 (fun q => if aget (sp_ix A) p =? aget (sp_ix B) q then aget (sp_v A) p *' aget (sp_v B) q else zero K)).

  Lemma rest_nil : forall A B a a1 b b1, a1 <= a \/ b1 <= b -> rest A B a a1 b b1 = zero K.
  Proof.
    intros A B a a1 b b1 [H|H]; unfold rest; [apply psum_nil; auto|]. apply (psum_zero K HR). intros. apply psum_nil. auto.
  Qed.
  Lemma rest_a : forall A B a a1 b b1, a < a1 -> rest A B a a1 b b1 =
    psum b b1 (fun q => if aget (sp_ix A) a =? aget (sp_ix B) q then aget (sp_v A) a *' aget (sp_v B) q else zero K) +' rest A B (a + 1) a1 b b1.
  Proof. intros. unfold rest. rewrite (psum_cons K HR a) by auto. reflexivity. Qed.
  Lemma rest_b : forall A B a a1 b b1, b < b1 -> (forall p, a <= p < a1 -> aget (sp_ix A) p <> aget (sp_ix B) b) -> rest A B a a1 b b1 = rest A B a a1 (b + 1) b1.
  Proof.
    intros A B a a1 b b1 Hb H. unfold rest. apply psum_ext. intros p Hp. rewrite (psum_cons K HR b) by auto. specialize (H p Hp).
    replace (aget (sp_ix A) p =? aget (sp_ix B) b) with false by lia. ring.
  Qed.

  Lemma rest_all : forall A B nA nB w' a b, lines A nA w' -> lines B nB w' -> 0 <= a < nA -> 0 <= b < nB ->
    rest A B (P A a) (P A (a + 1)) (P B b) (P B (b + 1)) = vsum K w' (fun t => lval A a t *' lval B b t).
  Proof.
    intros A B nA nB w' a b HA HB Ha Hb. rewrite (line_dot K HR A (fun t => lval B b t) a w') by (intros p Hp; apply (ln_ix _ _ _ HA a p Ha Hp)).
    unfold rest. apply psum_ext. intros p Hp. unfold PSpVec.lval. rewrite <- (psum_mul_l K HR). apply psum_ext. intros q Hq.
    rewrite Z.eqb_sym. destruct (aget (sp_ix B) q =? aget (sp_ix A) p); [reflexivity|ring].
  Qed.

  Lemma adds_dot : forall (A B : sparse T) nA nB w' a b k i, lines A nA w' -> lines B nB w' -> sorted_lines A nA -> sorted_lines B nB ->
    0 <= a < nA -> 0 <= b < nB -> 0 <= k < w ->
    adds i (fun acc => armas_accum_dot K acc k A a B b i) (fun c => if c =? k then vsum K w' (fun t => lval A a t *' lval B b t) else zero K)
      (fun c => c = k /\ exists t, in_line A a t /\ in_line B b t).
  Proof.
    intros A B nA nB w' a b k i HA HB SA SB Ha Hb Hk acc l f m HO. rewrite <- (rest_all A B nA nB w' a b) by auto.
    pose proof (drange A nA w' HA a Ha) as Ba. pose proof (drange B nB w' HB b Hb) as Bb. unfold armas_accum_dot.
    wbind. eapply dpt; eauto; [lia|]. wbind. eapply dpt; eauto; [lia|]. wbind. eapply dpt; eauto; [lia|]. wbind. eapply dpt; eauto; [lia|].
    set (a0 := P A a) in *. set (a1 := P A (a + 1)) in *. set (b0 := P B b) in *. set (b1 := P B (b + 1)) in *. wbind.
    apply wp_while with (I := fun n st m' => m' = m /\ let '(px, py, v, changed) := st in 0 <= px <= a1 - a0 /\ 0 <= py <= b1 - b0 /\
      (a1 - a0 - px) + (b1 - b0 - py) <= n /\ v +' rest A B (a0 + px) a1 (b0 + py) b1 = rest A B a0 a1 b0 b1 /\
      (changed = true -> exists t, in_line A a t /\ in_line B b t) /\ (changed = false -> v = zero K)) (n := (a1 - a0) + (b1 - b0)).
    - lia.
    - lia.
    - split; [auto|]. rewrite !Z.add_0_r. do 3 (split; [lia|]). split; [ring|]. split; [discriminate|auto].
    - intros n st m' Hn (-> & H). destruct st as [[[px py] v] changed]. destruct H as (H1 & H2 & H3 & H4 & H5 & H6). apply wp_ret.
      destruct ((px <? a1 - a0) && (py <? b1 - b0)) eqn:EC.
      + apply andb_true_iff in EC as [C1 C2]. apply Z.ltb_lt in C1, C2. split; [lia|].
        wbind. apply aread_wp; [lia|]. wbind. apply aread_wp; [lia|].
        assert (RA : forall p, a0 + px < p < a1 -> aget (sp_ix A) (a0 + px) < aget (sp_ix A) p) by (intros p Hp; apply (SA a); fold a0 a1; lia).
        assert (RB : forall q, b0 + py < q < b1 -> aget (sp_ix B) (b0 + py) < aget (sp_ix B) q) by (intros q Hq; apply (SB b); fold b0 b1; lia).
        set (ia := aget (sp_ix A) (a0 + px)) in *. set (ib := aget (sp_ix B) (b0 + py)) in *.
        destruct (Z.eqb_spec (ia - ib) 0) as [E|E]; [|destruct (Z.ltb_spec (ia - ib) 0)].
        * wbind. apply aread_wp; [rewrite (ln_v _ _ _ HA); lia|]. wbind. apply aread_wp; [rewrite (ln_v _ _ _ HB); lia|]. apply wp_ret. split; [auto|].
          do 3 (split; [lia|]). split; [|split; [|discriminate]].
          -- rewrite <- H4. rewrite (rest_a A B (a0 + px)) by lia. rewrite (psum_cons K HR (b0 + py)) by lia. fold ia ib. replace (ia =? ib) with true by lia.
             rewrite (psum_zero K HR (b0 + py + 1)) by (intros q Hq; specialize (RB q ltac:(lia)); replace (ia =? aget (sp_ix B) q) with false by lia; reflexivity).
             rewrite (rest_b A B (a0 + px + 1) a1 (b0 + py)) by (try lia; intros p Hp; specialize (RA p ltac:(lia)); fold ib; lia).
             rewrite !Z.add_assoc. ring.
          -- intros _. exists ia. split; [exists (a0 + px); fold a0 a1; split; [lia|auto]|exists (b0 + py); fold b0 b1; split; [lia|fold ib; lia]].
        * apply wp_ret. split; [auto|]. do 3 (split; [lia|]). split; [|auto]. rewrite <- H4. rewrite (rest_a A B (a0 + px)) by lia.
          rewrite (psum_zero K HR (b0 + py)). { rewrite !Z.add_assoc. ring. }
          intros q Hq. fold ia. destruct (Z.eq_dec q (b0 + py)) as [->|]; [fold ib; replace (ia =? ib) with false by lia; reflexivity|].
          specialize (RB q ltac:(lia)). replace (ia =? aget (sp_ix B) q) with false by lia. reflexivity.
        * apply wp_ret. split; [auto|]. do 3 (split; [lia|]). split; [|auto]. rewrite <- H4. rewrite (rest_b A B (a0 + px) a1 (b0 + py)).
          { rewrite !Z.add_assoc. reflexivity. } { lia. }
          intros p Hp. fold ib. destruct (Z.eq_dec p (a0 + px)) as [->|]; [fold ia; lia|]. specialize (RA p ltac:(lia)). lia.
      + assert (X : v = rest A B a0 a1 b0 b1).
        { rewrite <- H4. rewrite rest_nil; [ring|]. apply andb_false_iff in EC as [C|C]; apply Z.ltb_ge in C; lia. }
        rewrite <- X. destruct changed.
        * eapply wp_conseq; [apply (adds_one i k v Hk acc l f m HO)|]. intros acc' m' (-> & l' & H7 & H8). split; [auto|]. exists l'. split; [exact H7|].
          intros c Hc. destruct (H8 c Hc); auto.
        * apply wp_ret. split; [auto|]. exists l. split; [|auto]. eapply acc_ext; [exact HO|]. intros c Hc. cbn beta. rewrite H6 by auto. destruct (c =? k); ring.
  Qed.

  Lemma adds_mult_dots : forall sw (A B : sparse T) nA nB w' i, lines A nA w' -> lines B nB w' -> sorted_lines A nA -> sorted_lines B nB ->
    0 <= i < nA -> nB = w ->
    adds i (mult_dots K sw A B nB i) (fun c => vsum K w' (fun t => lval A i t *' lval B c t)) (fun c => exists t, in_line A i t /\ in_line B c t).
  Proof.
    intros sw A B nA nB w' i HA HB SA SB Hi Hn. unfold mult_dots. eapply adds_ext.
    - apply adds_for with (g := fun k c => if c =? k then vsum K w' (fun t => lval A i t *' lval B k t) else zero K) (S := fun k c => c = k /\ exists t, in_line A i t /\ in_line B k t).
      intros k Hk. destruct sw.
      + eapply adds_ext; [apply (adds_dot B A nB nA w' k i k i); auto; lia| |].
        * intros c Hc. cbn beta. destruct (c =? k); [|reflexivity]. apply vsum_ext. intros. ring.
        * intros c Hc (E & t & H1 & H2). split; [auto|]. exists t. auto.
      + apply (adds_dot A B nA nB w' i k k i); auto; lia.
    - intros c Hc. cbn beta. rewrite (psum_one K HR _ _ c); [rewrite Z.eqb_refl; reflexivity|lia|]. intros q Hq Hne. replace (c =? q) with false by lia. reflexivity.
    - intros c Hc (p & Hp & -> & H). exact H.
  Qed.
End Acc.
