(* PElem.v: element-wise matrix functions. *)
From Coq Require Import ZArith Lia Ring Bool ZifyBool.
From Verif Require Import Mem MView SpecView PView PSub Hoare MFlags MCopy PUpd PCopy
  MNum SpecNum MBlas1 PSum PBlas1 MElem.
Local Open Scope Z_scope.
Local Open Scope prog_scope.

(* a disjunction one of whose members is an assumption or provable by lia *)
Ltac por := lazymatch goal with
  | |- _ \/ _ => first [left; por | right; por]
  | _ => first [assumption | lia] end.
Ltac por_hyp := repeat match goal with H : _ \/ _ |- _ => destruct H as [H|H] end.
Ltac usplit := cbn [fst snd]; split; intros HH; por_hyp; por.

Section U.
  Context {T : Type}.
  Implicit Types (m : Z -> T).
  Variables (L : Z -> bool) (A : view) (m0 : Z -> T) (F : Z * Z -> T).
  Hypotheses (WA : wf A) (LA : allocated L A).

  (* the elements in S have been written *)
  Definition U (S : Z * Z -> Prop) m : Prop :=
    upd m0 (mad A) F S m /\ (forall q, S q -> mdom A q).

  Lemma U_ext : forall S S' m, (forall i j, S (i, j) <-> S' (i, j)) -> U S m -> U S' m.
  Proof.
    intros S S' m H (H1 & H2). split.
    - eapply upd_ext; [|exact H1]. intros [i j]; apply H.
    - intros [i j] Hq. apply H2, H, Hq.
  Qed.

  Lemma U_nil : U (fun _ => False) m0.
  Proof. split; [apply upd_nil; auto|intros q []]. Qed.

  Lemma U_old : forall S m i j, U S m -> pos A i j -> ~ S (i, j) -> m (mad A (i, j)) = m0 (mad A (i, j)).
  Proof. intros S m i j (H1 & H2) Hp Hn. eapply mupd_old; eauto. Qed.

  Lemma U_disj : forall S m B a, U S m -> disjoint A B -> cell B a -> m a = m0 a.
  Proof. intros S m B a (H1 & H2) HD Hc. eapply mupd_disj; eauto. Qed.

  Lemma U_wr : forall S m i j a v (Q : unit -> (Z -> T) -> Prop),
    U S m -> pos A i j -> a = mad A (i, j) -> v = F (i, j) ->
    (forall m', U (fun q => S q \/ (fst q = i /\ snd q = j)) m' -> Q tt m') ->
    wp (wr a v) L m Q.
  Proof.
    intros S m i j a v Q (H1 & H2) Hp Ea Ev HQ.
    eapply wp_wr_m with (i := i) (j := j); eauto.
    intros m' Hu. apply HQ. split; auto. intros [i' j'] [Hq|(E1 & E2)]; auto.
    cbn in E1, E2. subst. exact Hp.
  Qed.

  Lemma U_rd : forall m i j a (Q : T -> (Z -> T) -> Prop),
    pos A i j -> a = mad A (i, j) -> Q (m (mad A (i, j))) m -> wp (rd a) L m Q.
  Proof. intros. eapply wp_rd_m with (A := A) (i := i) (j := j); eauto. Qed.

  (* e i j writes element (i, j), if not yet written *)
  Definition est (e : Z -> Z -> M T unit) : Prop :=
    forall S m i j (Q : unit -> (Z -> T) -> Prop), U S m -> pos A i j -> ~ S (i, j) ->
    (forall m', U (fun q => S q \/ (fst q = i /\ snd q = j)) m' -> Q tt m') -> wp (e i j) L m Q.

  Lemma est_col : forall e j lo hi S m (Q : unit -> (Z -> T) -> Prop), est e -> U S m ->
    (forall i, lo <= i < hi -> pos A i j /\ ~ S (i, j)) ->
    (forall m', U (fun q => S q \/ (snd q = j /\ lo <= fst q < hi)) m' -> Q tt m') ->
    wp (for_up lo hi 1 (fun i => e i j)) L m Q.
  Proof.
    intros e j lo hi S m Q He Hu Hp HQ.
    apply wp_for1 with (I := fun i m => U (fun q => S q \/ (snd q = j /\ lo <= fst q < i)) m).
    - eapply U_ext; [|exact Hu]. intros i' j'; usplit.
    - clear m Hu. intros i m Hi Hu. destruct (Hp i Hi) as (H1 & H2). eapply He; [exact Hu|auto| |].
      + cbn. intros [?|?]; [auto|lia].
      + intros m' Hu'. eapply U_ext; [|exact Hu']. intros i' j'; destruct (Z.eq_dec i' i), (Z.eq_dec j' j); usplit.
    - intros m' Hu'. apply HQ. eapply U_ext; [|exact Hu']. intros i' j'; usplit.
  Qed.

  Lemma est_row : forall e i lo hi S m (Q : unit -> (Z -> T) -> Prop), est e -> U S m ->
    (forall j, lo <= j < hi -> pos A i j /\ ~ S (i, j)) ->
    (forall m', U (fun q => S q \/ (fst q = i /\ lo <= snd q < hi)) m' -> Q tt m') ->
    wp (for_up lo hi 1 (fun j => e i j)) L m Q.
  Proof.
    intros e i lo hi S m Q He Hu Hp HQ.
    apply wp_for1 with (I := fun j m => U (fun q => S q \/ (fst q = i /\ lo <= snd q < j)) m).
    - eapply U_ext; [|exact Hu]. intros i' j'; usplit.
    - clear m Hu. intros j m Hi Hu. destruct (Hp j Hi) as (H1 & H2). eapply He; [exact Hu|auto| |].
      + cbn. intros [?|?]; [auto|lia].
      + intros m' Hu'. eapply U_ext; [|exact Hu']. intros i' j'; destruct (Z.eq_dec i' i), (Z.eq_dec j' j); usplit.
    - intros m' Hu'. apply HQ. eapply U_ext; [|exact Hu']. intros i' j'; usplit.
  Qed.

  (* four columns at a time *)
  Lemma est_col4 : forall e j lo hi S m (Q : unit -> (Z -> T) -> Prop), est e -> U S m ->
    (forall i k, lo <= i < hi -> j <= k < j + 4 -> pos A i k /\ ~ S (i, k)) ->
    (forall m', U (fun q => S q \/ (j <= snd q < j + 4 /\ lo <= fst q < hi)) m' -> Q tt m') ->
    wp (for_up lo hi 1 (fun i => e i (j + 0) ;; e i (j + 1) ;; e i (j + 2) ;; e i (j + 3))) L m Q.
  Proof.
    intros e j lo hi S m Q He Hu Hp HQ.
    apply wp_for1 with (I := fun i m => U (fun q => S q \/ (j <= snd q < j + 4 /\ lo <= fst q < i)) m).
    - eapply U_ext; [|exact Hu]. intros i' j'; usplit.
    - clear m Hu. intros i m Hi Hu.
      wbind. eapply He; [exact Hu|apply Hp; lia| |].
      { cbn. intros [Hc|?]; [apply Hp in Hc; auto; lia|lia]. }
      clear m Hu. intros m Hu. wbind. eapply He; [exact Hu|apply Hp; lia| |].
      { cbn. intros [[Hc|?]|?]; [apply Hp in Hc; auto; lia|lia|lia]. }
      clear m Hu. intros m Hu. wbind. eapply He; [exact Hu|apply Hp; lia| |].
      { cbn. intros [[[Hc|?]|?]|?]; [apply Hp in Hc; auto; lia|lia|lia|lia]. }
      clear m Hu. intros m Hu. eapply He; [exact Hu|apply Hp; lia| |].
      { cbn. intros [[[[Hc|?]|?]|?]|?]; [apply Hp in Hc; auto; lia|lia|lia|lia|lia]. }
      clear m Hu. intros m Hu. eapply U_ext; [|exact Hu]. intros i' j'.
      destruct (Z.eq_dec i' i), (Z.eq_dec j' j), (Z.eq_dec j' (j + 1)), (Z.eq_dec j' (j + 2)); usplit.
    - intros m' Hu'. apply HQ. eapply U_ext; [|exact Hu']. intros i' j'; usplit.
  Qed.

  (* all elements, four columns at a time *)
  Lemma est_all4 : forall e (Q : unit -> (Z -> T) -> Prop), est e ->
    (forall m', U (mdom A) m' -> Q tt m') ->
    wp (unroll4c (cols A)
      (fun j => for_up 0 (rows A) 1 (fun i => e i (j + 0) ;; e i (j + 1) ;; e i (j + 2) ;; e i (j + 3)))
      (fun j => for_up 0 (rows A) 1 (fun i => e i (j + 0)))) L m0 Q.
  Proof.
    intros e Q He HQ. destruct WA as (H1 & H2 & H3).
    apply wp_unroll4c with (I := fun j m => U (fun q => mdom A q /\ snd q < j) m); auto.
    - eapply U_ext; [|apply U_nil]. intros i j; unfold mdom, pos; cbn; lia.
    - intros j m Hj Hj3 Hu. eapply est_col4; [exact He|exact Hu| |].
      + intros i k Hi Hk. unfold mdom, pos; cbn. lia.
      + intros m' Hu'. eapply U_ext; [|exact Hu']. intros i' j'; unfold mdom, pos; cbn. lia.
    - intros j m Hj Hu. eapply est_col; [exact He|exact Hu| |].
      + intros i Hi. unfold mdom, pos; cbn. lia.
      + intros m' Hu'. eapply U_ext; [|exact Hu']. intros i' j'; unfold mdom, pos; cbn. lia.
    - intros m Hu. apply HQ. eapply U_ext; [|exact Hu]. intros i' j'; unfold mdom, pos; cbn. lia.
  Qed.

  (* column by column, rows lo j <= i < hi j *)
  Lemma est_cols : forall e (lo hi : Z -> Z) n (Q : unit -> (Z -> T) -> Prop), est e ->
    (forall i j, 0 <= j < n -> lo j <= i < hi j -> pos A i j) ->
    (forall m', U (fun q => 0 <= snd q < n /\ lo (snd q) <= fst q < hi (snd q)) m' -> Q tt m') ->
    wp (for_up 0 n 1 (fun j => for_up (lo j) (hi j) 1 (fun i => e i j))) L m0 Q.
  Proof.
    intros e lo hi n Q He Hp HQ.
    apply wp_for1 with (I := fun j m => U (fun q => 0 <= snd q < j /\ lo (snd q) <= fst q < hi (snd q)) m).
    - eapply U_ext; [|apply U_nil]. intros i j; cbn; lia.
    - intros j m Hj Hu. eapply est_col; [exact He|exact Hu| |].
      + intros i Hi. split; [apply Hp; lia|]. cbn. lia.
      + intros m' Hu'. eapply U_ext; [|exact Hu']. intros i' j'; cbn. split.
        * intros [?|(-> & ?)]; lia.
        * intros (? & ?). assert (j' < j \/ j' = j) as [?| ->] by lia; [left|right]; lia.
    - intros m Hu. apply HQ. eapply U_ext; [|exact Hu]. intros i' j'; cbn. lia.
  Qed.

  (* conclusion: exactly the elements with sel i j have been written *)
  Lemma U_end : forall S (sel : Z -> Z -> bool) m', U S m' ->
    (forall i j, pos A i j -> S (i, j) <-> sel i j = true) ->
    (forall i j, pos A i j -> elt m' A i j = if sel i j then F (i, j) else elt m0 A i j) /\
    only_changes A m0 m'.
  Proof.
    intros S sel m' Hu HS. split.
    - intros i j Hp. rewrite !elt_mad. destruct (sel i j) eqn:E.
      + destruct Hu as (Hu & _). apply (upd_new _ _ _ _ _ (i, j) Hu). apply HS; auto.
      + eapply U_old; eauto. intros Hc. apply HS in Hc; auto. congruence.
    - destruct Hu as (Hu & Hd). eapply mupd_only; eauto.
  Qed.
End U.

Section P.
  Context {T : Type} (K : num T).
  Implicit Types (m : Z -> T) (L : Z -> bool).
  Local Notation "x +' y" := (add K x y) (at level 50, left associativity).
  Local Notation "x *' y" := (mul K x y) (at level 40, left associativity).

  Lemma est_set : forall L A m0 (value : Z -> Z -> T), wf A -> allocated L A ->
    est L A m0 (fun p => value (fst p) (snd p)) (fun i j => armas_set_unsafe A i j (value i j)).
  Proof.
    intros L A m0 value WA LA S m i j Q Hu Hp Hn HQ. unfold armas_set_unsafe.
    eapply U_wr with (A := A); eauto. unfold mad; cbn; lia.
  Qed.

  Lemma est_modify : forall L A m0 (op : T -> T), wf A -> allocated L A ->
    est L A m0 (fun p => op (m0 (mad A p))) (fun i j => modify (elems A + (i + j * step A)) op).
  Proof.
    intros L A m0 op WA LA S m i j Q Hu Hp Hn HQ. unfold modify. wbind.
    eapply U_rd with (A := A) (i := i) (j := j); eauto; [unfold mad; cbn; lia|].
    eapply U_wr with (A := A); eauto. unfold mad; cbn; lia.
    cbv beta. rewrite (U_old A m0 _ WA S m i j Hu Hp Hn). reflexivity.
  Qed.

  Lemma est_apply : forall L A m0 (op : T -> T), wf A -> allocated L A ->
    est L A m0 (fun p => op (m0 (mad A p)))
      (fun i j => v <- armas_get_unsafe A i j ;; armas_set_unsafe A i j (op v)).
  Proof.
    intros L A m0 op WA LA S m i j Q Hu Hp Hn HQ. unfold armas_get_unsafe, armas_set_unsafe. wbind.
    eapply U_rd with (A := A) (i := i) (j := j); eauto; [unfold mad; cbn; lia|].
    eapply U_wr with (A := A); eauto. unfold mad; cbn; lia.
    cbv beta. rewrite (U_old A m0 _ WA S m i j Hu Hp Hn). reflexivity.
  Qed.

  Lemma est_wr : forall L A m0 (v : T), wf A -> allocated L A ->
    est L A m0 (fun p => v) (fun i j => wr (elems A + (i + j * step A)) v).
  Proof.
    intros L A m0 v WA LA S m i j Q Hu Hp Hn HQ.
    eapply U_wr with (A := A); eauto. unfold mad; cbn; lia.
  Qed.

  Lemma est_plus : forall L A B m0 g alpha beta, wf A -> allocated L A -> wf B -> allocated L B -> disjoint A B ->
    rows A <= rows B -> cols A <= cols B ->
    est L A m0 (fun p => alpha *' g (m0 (mad A p)) +' beta *' g (m0 (mad B p)))
      (fun i j => plus1 K g alpha beta (elems A + (i + j * step A)) (elems B + (i + j * step B))).
  Proof.
    intros L A B m0 g alpha beta WA LA WB LB D Hr Hc S m i j Q Hu Hp Hn HQ. unfold plus1. wbind.
    assert (HpB : pos B i j) by (unfold pos in *; lia).
    eapply U_rd with (A := A) (i := i) (j := j); eauto; [unfold mad; cbn; lia|]. wbind.
    eapply U_rd with (A := B) (i := i) (j := j); eauto; [unfold mad; cbn; lia|].
    eapply U_wr with (A := A); eauto. unfold mad; cbn; lia.
    cbv beta. rewrite (U_old A m0 _ WA S m i j Hu Hp Hn).
    erewrite (U_disj A m0 _ S m B) by (eauto; apply mad_cell; auto). reflexivity.
  Qed.

  Lemma est_plus_t : forall L A B m0 g alpha beta, wf A -> allocated L A -> wf B -> allocated L B -> disjoint A B ->
    rows A <= cols B -> cols A <= rows B ->
    est L A m0 (fun p => alpha *' g (m0 (mad A p)) +' beta *' g (m0 (mad B (snd p, fst p))))
      (fun i j => plus1 K g alpha beta (elems A + (i + j * step A)) (elems B + (j + i * step B))).
  Proof.
    intros L A B m0 g alpha beta WA LA WB LB D Hr Hc S m i j Q Hu Hp Hn HQ. unfold plus1. wbind.
    assert (HpB : pos B j i) by (unfold pos in *; lia).
    eapply U_rd with (A := A) (i := i) (j := j); eauto; [unfold mad; cbn; lia|]. wbind.
    eapply U_rd with (A := B) (i := j) (j := i); eauto; [unfold mad; cbn; lia|].
    eapply U_wr with (A := A); eauto. unfold mad; cbn; lia.
    cbv beta. cbn [fst snd]. rewrite (U_old A m0 _ WA S m i j Hu Hp Hn).
    erewrite (U_disj A m0 _ S m B) by (eauto; apply mad_cell; auto). reflexivity.
  Qed.

  (* a column segment handed to vec_scale or vec_add *)
  Lemma vec_modify_none : forall L X op N m (Q : unit -> (Z -> T) -> Prop), N <= 0 -> Q tt m ->
    wp (vec_modify X op N) L m Q.
  Proof.
    intros L X op N m Q HN HQ. destruct (Z_lt_dec N 0); [apply wp_unroll4_neg; auto|].
    assert (N = 0) as -> by lia. unfold vec_modify, unroll4, unroll4_acc, for_acc.
    rewrite trips_0, loop_end_0 by lia. wbind. cbn [iter]. apply wp_ret.
    unfold tail3. cbn. apply wp_ret; auto.
  Qed.

  Lemma est_vec : forall L A m0 op r c n S m (Q : unit -> (Z -> T) -> Prop), wf A -> allocated L A ->
    U A m0 (fun p => op (m0 (mad A p))) S m ->
    (forall i, r <= i < r + n -> pos A i c /\ ~ S (i, c)) ->
    (forall m', U A m0 (fun p => op (m0 (mad A p))) (fun q => S q \/ (snd q = c /\ r <= fst q < r + n)) m' -> Q tt m') ->
    wp (let C := armas_submatrix_unsafe A r c n 1 in vec_modify C op (rows C)) L m Q.
  Proof.
    intros L A m0 op r c n S m Q WA LA Hu Hp HQ. cbv zeta. cbn [rows armas_submatrix_unsafe armas_make].
    destruct (Z_le_dec n 0).
    { apply vec_modify_none; auto. apply HQ. eapply U_ext; [|exact Hu]. intros i j; usplit. }
    destruct (Hp r ltac:(lia)) as (P1 & _). destruct (Hp (r + n - 1) ltac:(lia)) as (P2 & _).
    unfold pos in P1, P2.
    set (C := armas_submatrix_unsafe A r c n 1).
    assert (HC : shows C A r c n 1) by (apply sub_shows; auto; lia).
    destruct HC as (C1 & C2 & C3 & C4 & C5).
    assert (HV : forall k, 0 <= k < n -> vad C k = mad A (r + k, c)).
    { intros k Hk. unfold C, vad, vec_pos, mad, armas_submatrix_unsafe, armas_make. cbn [rows elems step fst snd].
      destruct (n =? 1) eqn:E; cbn [fst snd]; [assert (k = 0) as -> by lia|]; lia. }
    apply vec_modify_wp; auto.
    - right; auto.
    - intros a Ha. apply LA, C4, Ha.
    - unfold vlen. rewrite C1, C2. lia.
    - intros m' (H1 & H2). apply HQ. destruct Hu as ((U1 & U2) & U3). split; [split|].
      + intros [i j] Hs. cbn [fst snd] in Hs.
        assert (Hin : (j = c /\ r <= i < r + n) \/ ~ (j = c /\ r <= i < r + n)) by lia.
        destruct Hin as [(-> & Hi)|Hn].
        * replace i with (r + (i - r)) by lia. rewrite <- HV by lia. rewrite H1 by lia.
          rewrite HV by lia. replace (r + (i - r)) with i by lia. f_equal.
          destruct (Hp i Hi) as (Q1 & Q2).
          apply (U_old A m0 (fun p => op (m0 (mad A p))) WA S m); auto. split; auto. split; auto.
        * destruct Hs as [Hs|Hs]; [|contradiction]. rewrite <- (U1 (i, j)) by auto. apply H2.
          intros k Hk E. rewrite HV in E by auto. apply (mad_inj A WA) in E; auto.
          -- injection E as -> ->. lia.
          -- destruct (Hp (r + k)); [lia|auto].
      + intros a Ha. rewrite H2.
        * apply U2. intros q Hq. apply Ha. auto.
        * intros k Hk. rewrite HV by auto. apply Ha. right. cbn; lia.
      + intros [i j] [Hs|(E & Hs)]; auto. cbn in E, Hs. unfold mdom; cbn. rewrite E. destruct (Hp i); auto.
  Qed.

  (* ---------------------------------------------------------------- *)
  (* exported functions *)

  Lemma scale_all_wp : forall L A m0 alpha (Q : unit -> (Z -> T) -> Prop), is_ring K -> eqb_ok K ->
    wf A -> allocated L A ->
    (forall m', (forall i j, pos A i j -> elt m' A i j = elt m0 A i j *' alpha) -> only_changes A m0 m' -> Q tt m') ->
    wp (armas_scale_unsafe K A alpha) L m0 Q.
  Proof.
    intros L A m0 alpha Q HR HE WA LA HQ. unfold armas_scale_unsafe. apply wp_if; intros E.
    - apply isvector_isvec in E. apply vec_modify_wp; auto; [change (armas_size A) with (vlen A); lia|].
      intros m' Hu. apply HQ.
      + intros i j Hp. assert (Hk : exists k, 0 <= k < vlen A /\ vec_pos A k = (i, j)).
        { unfold pos, vec_pos, vlen in *. destruct (rows A =? 1) eqn:Er.
          - exists j. split; [nia|]. f_equal. lia.
          - exists i. destruct E as [E|E]; [lia|]. split; [nia|]. f_equal. lia. }
        destruct Hk as (k & Hk & Ek). pose proof (upd_new _ _ _ _ _ k Hu Hk) as H.
        unfold vad in H. rewrite Ek in H. exact H.
      + eapply vupd_only; eauto.
    - unfold blk_scale. apply wp_if; intros E1.
      { apply HE in E1. subst. apply wp_ret. apply HQ; [|intros a _; reflexivity].
        intros. rewrite (Rmul_comm HR), (Rmul_1_l HR). reflexivity. }
      apply wp_if; intros E2.
      + apply HE in E2. subst. unfold blk_loop.
        apply (est_all4 L A m0 (fun p => zero K)) with (e := fun i j => wr (elems A + (i + j * step A)) (zero K)); auto.
        * apply est_wr; auto.
        * intros m' Hu. destruct (U_end A m0 _ WA (mdom A) (fun _ _ => true) m' Hu) as (H1 & H2).
          { intros; split; auto. }
          apply HQ; auto. intros i j Hp. rewrite H1 by auto.
          rewrite (Rmul_comm HR). symmetry. apply (Ring_theory.ARmul_0_l (Rth_ARth (Eqsth T) (Eq_ext _ _ _) HR)).
      + unfold blk_loop.
        apply (est_all4 L A m0 (fun p => m0 (mad A p) *' alpha)) with (e := fun i j => modify (elems A + (i + j * step A)) (fun v => v *' alpha)); auto.
        * apply (est_modify L A m0 (fun v => v *' alpha)); auto.
        * intros m' Hu. destruct (U_end A m0 _ WA (mdom A) (fun _ _ => true) m' Hu) as (H1 & H2).
          { intros; split; auto. }
          apply HQ; auto.
  Qed.

  Lemma mscale_all : forall L m A alpha flags, is_ring K -> eqb_ok K -> wf A -> allocated L A ->
    let sel := Z.land flags (ARMAS_SYMM + ARMAS_UPPER + ARMAS_LOWER) in
    sel <> ARMAS_UPPER -> sel <> ARMAS_LOWER -> (sel = ARMAS_SYMM -> rows A = cols A) ->
    exists m', armas_mscale K A alpha flags L m = Some (0, m') /\
      (forall i j, pos A i j -> elt m' A i j = elt m A i j *' alpha) /\ only_changes A m m'.
  Proof.
    intros L m A alpha flags HR HE WA LA sel H1 H2 H3.
    assert (W : wp (armas_mscale K A alpha flags) L m (fun r m' => r = 0 /\
      (forall i j, pos A i j -> elt m' A i j = elt m A i j *' alpha) /\ only_changes A m m')).
    { unfold armas_mscale. fold sel. cbv zeta.
      replace (sel =? ARMAS_UPPER) with false by lia. replace (sel =? ARMAS_LOWER) with false by lia.
      replace ((sel =? ARMAS_SYMM) && negb (rows A =? cols A)) with false by lia.
      wbind. apply scale_all_wp; auto. intros m' Hm Ho. apply wp_ret. auto. }
    destruct W as (r & m' & E & -> & H). eauto.
  Qed.

  (* column by column with vec_modify *)
  Lemma vec_cols_wp : forall L A m0 op (lo len : Z -> Z) n (f : Z -> M T unit) (Q : unit -> (Z -> T) -> Prop),
    wf A -> allocated L A ->
    (forall c, f c = let C := armas_submatrix_unsafe A (lo c) c (len c) 1 in vec_modify C op (rows C)) ->
    (forall i j, 0 <= j < n -> lo j <= i < lo j + len j -> pos A i j) ->
    (forall m', U A m0 (fun p => op (m0 (mad A p)))
       (fun q => 0 <= snd q < n /\ lo (snd q) <= fst q < lo (snd q) + len (snd q)) m' -> Q tt m') ->
    wp (for_up 0 n 1 f) L m0 Q.
  Proof.
    intros L A m0 op lo len n f Q WA LA Hf Hp HQ.
    apply wp_for1 with (I := fun j m => U A m0 (fun p => op (m0 (mad A p)))
       (fun q => 0 <= snd q < j /\ lo (snd q) <= fst q < lo (snd q) + len (snd q)) m).
    - eapply U_ext; [|apply U_nil]. intros i j; cbn; lia.
    - intros j m Hj Hu. rewrite Hf. eapply est_vec; eauto.
      + intros i Hi. split; [apply Hp; lia|]. cbn. lia.
      + intros m' Hu'. eapply U_ext; [|exact Hu']. intros i' j'; cbn. split.
        * intros [?|(-> & ?)]; lia.
        * intros (? & ?). assert (j' < j \/ j' = j) as [?| ->] by lia; [left|right]; lia.
    - intros m Hu. apply HQ. eapply U_ext; [|exact Hu]. intros i' j'; cbn. lia.
  Qed.

  Lemma mscale_lower : forall L m A alpha flags n, wf A -> allocated L A ->
    Z.land flags (ARMAS_SYMM + ARMAS_UPPER + ARMAS_LOWER) = ARMAS_LOWER ->
    n = (if has flags ARMAS_UNIT then 1 else 0) ->
    (n = 1 -> rows A <= cols A) ->
    exists m', armas_mscale K A alpha flags L m = Some (0, m') /\
      (forall i j, pos A i j -> elt m' A i j =
         if j + n <=? i then elt m A i j *' alpha else elt m A i j) /\ only_changes A m m'.
  Proof.
    intros L m A alpha flags n WA LA H1 En H2.
    assert (W : wp (armas_mscale K A alpha flags) L m (fun r m' => r = 0 /\
      (forall i j, pos A i j -> elt m' A i j =
         if j + n <=? i then elt m A i j *' alpha else elt m A i j) /\ only_changes A m m')).
    { unfold armas_mscale. cbv zeta. rewrite H1. change (ARMAS_LOWER =? ARMAS_UPPER) with false.
      change (ARMAS_LOWER =? ARMAS_LOWER) with true. cbv iota. rewrite <- En.
      assert (Hn : n = 0 \/ (n = 1 /\ rows A <= cols A)).
      { destruct (has flags ARMAS_UNIT); subst n; auto. }
      wbind.
      apply (vec_cols_wp L A m (fun v => v *' alpha) (fun c => c + n) (fun c => rows A - c - n)); auto.
      - intros i j Hj Hi. unfold pos. lia.
      - intros m' Hu. apply wp_ret. split; [auto|].
        apply (U_end A m _ WA _ (fun i j => j + n <=? i) m' Hu).
        intros i j Hp. cbn [fst snd]. unfold pos in Hp. lia. }
    destruct W as (r & m' & E & -> & H). eauto.
  Qed.

  Lemma madd_vec : forall L m A alpha flags, wf A -> allocated L A -> isvec A ->
    exists m', armas_madd K A alpha flags L m = Some (0, m') /\
      (forall k, 0 <= k < vlen A -> velt m' A k = velt m A k +' alpha) /\ only_changes A m m'.
  Proof.
    intros L m A alpha flags WA LA VA.
    assert (W : wp (armas_madd K A alpha flags) L m (fun r m' => r = 0 /\
      (forall k, 0 <= k < vlen A -> velt m' A k = velt m A k +' alpha) /\ only_changes A m m')).
    { unfold armas_madd. apply isvector_isvec in VA as E. rewrite E. wbind.
      apply vec_modify_wp; auto; [change (armas_size A) with (vlen A); lia|].
      intros m' Hu. apply wp_ret. split; [auto|split].
      - intros k Hk. apply (upd_new _ _ _ _ _ k Hu Hk).
      - eapply vupd_only; eauto. }
    destruct W as (r & m' & E & -> & H). eauto.
  Qed.

  Lemma madd_sel : forall L m A alpha flags n (sel : Z -> Z -> bool), wf A -> allocated L A -> ~ isvec A ->
    let s := Z.land flags (ARMAS_SYMM + ARMAS_UPPER + ARMAS_LOWER) in
    n = (if has flags ARMAS_UNIT then 1 else 0) ->
    (s = ARMAS_UPPER -> n = 0 /\ cols A <= rows A /\ sel = fun i j => i <=? j) ->
    (s = ARMAS_LOWER -> (n = 1 -> rows A <= cols A) /\ sel = fun i j => j + n <=? i) ->
    (s <> ARMAS_UPPER -> s <> ARMAS_LOWER -> (s = ARMAS_SYMM -> rows A = cols A) /\ sel = fun i j => true) ->
    exists m', armas_madd K A alpha flags L m = Some (0, m') /\
      (forall i j, pos A i j -> elt m' A i j =
         if sel i j then elt m A i j +' alpha else elt m A i j) /\ only_changes A m m'.
  Proof.
    intros L m A alpha flags n sel WA LA VA s En H1 H2 H3.
    assert (W : wp (armas_madd K A alpha flags) L m (fun r m' => r = 0 /\
      (forall i j, pos A i j -> elt m' A i j =
         if sel i j then elt m A i j +' alpha else elt m A i j) /\ only_changes A m m')).
    { unfold armas_madd. rewrite <- isvector_isvec in VA. apply not_true_is_false in VA. rewrite VA.
      fold s. cbv zeta. rewrite <- En.
      assert (Hn : n = 0 \/ n = 1) by (destruct (has flags ARMAS_UNIT); auto). clear En.
      apply wp_if; intros E1; [|apply wp_if; intros E2; [|apply wp_if; intros E3]].
      - destruct H1 as (-> & Hc & ->); [lia|]. wbind.
        apply (vec_cols_wp L A m (fun v => v +' alpha) (fun c => 0) (fun c => c + 1)); auto.
        + intros c. rewrite Z.add_0_r, Z.sub_0_r. reflexivity.
        + intros i j Hj Hi. unfold pos. lia.
        + intros m' Hu. apply wp_ret. split; [auto|].
          apply (U_end A m _ WA _ (fun i j => i <=? j) m' Hu).
          intros i j Hp. cbn [fst snd]. unfold pos in Hp. lia.
      - destruct H2 as (Hc & ->); [lia|]. wbind.
        apply (vec_cols_wp L A m (fun v => v +' alpha) (fun c => c + n) (fun c => rows A - c - n)); auto.
        + intros i j Hj Hi. unfold pos. lia.
        + intros m' Hu. apply wp_ret. split; [auto|].
          apply (U_end A m _ WA _ (fun i j => j + n <=? i) m' Hu).
          intros i j Hp. cbn [fst snd]. unfold pos in Hp. lia.
      - exfalso. destruct H3 as (H3 & _); [lia|lia|]. specialize (H3 ltac:(lia)). lia.
      - destruct H3 as (H3 & ->); [lia|lia|]. wbind.
        apply (vec_cols_wp L A m (fun v => v +' alpha) (fun c => 0) (fun c => rows A)); auto.
        + intros i j Hj Hi. unfold pos. lia.
        + intros m' Hu. apply wp_ret. split; [auto|].
          apply (U_end A m _ WA _ (fun i j => true) m' Hu).
          intros i j Hp. cbn [fst snd]. unfold pos in Hp. split; auto. lia. }
    destruct W as (r & m' & E & -> & H). eauto.
  Qed.

  (* ---------------------------------------------------------------- *)
  (* mplus *)

  (* rows lo <= i < hi of columns j .. j+3 *)
  Lemma est_lower_wp : forall L A m0 F e (Q : unit -> (Z -> T) -> Prop), wf A -> est L A m0 F e ->
    (forall m', U A m0 F (fun q => mdom A q /\ snd q <= fst q) m' -> Q tt m') ->
    wp (unroll4c (cols A)
      (fun j =>
         for_up j (j + 3) 1 (fun k => for_up k (Z.min (j + 3) (rows A)) 1 (fun i => e i k)) ;;
         for_up (j + 3) (rows A) 1 (fun i => e i (j + 0) ;; e i (j + 1) ;; e i (j + 2) ;; e i (j + 3)))
      (fun j => for_up j (rows A) 1 (fun i => e i (j + 0)))) L m0 Q.
  Proof.
    intros L A m0 F e Q WA He HQ. pose proof WA as (H1 & H2 & H3).
    apply wp_unroll4c with (I := fun j m => U A m0 F (fun q => mdom A q /\ snd q <= fst q /\ snd q < j) m); auto.
    - eapply U_ext; [|apply U_nil]. intros i j; unfold mdom, pos; cbn; lia.
    - intros j m Hj Hj3 Hu. wbind.
      apply wp_for1 with (I := fun k m => U A m0 F (fun q => mdom A q /\ snd q <= fst q /\
          (snd q < j \/ (snd q < k /\ fst q < j + 3))) m).
      + eapply U_ext; [|exact Hu]. intros i k; unfold mdom, pos; cbn; lia.
      + clear m Hu. intros k m Hk Hu. eapply est_col; [exact He|exact Hu| |].
        * intros i Hi. unfold mdom, pos; cbn. lia.
        * intros m' Hu'. eapply U_ext; [|exact Hu']. intros i' j'; unfold mdom, pos; cbn. lia.
      + clear m Hu. intros m Hu. eapply est_col4; [exact He|exact Hu| |].
        * intros i k Hi Hk. unfold mdom, pos; cbn. lia.
        * intros m' Hu'. eapply U_ext; [|exact Hu']. intros i' j'; unfold mdom, pos; cbn. lia.
    - intros j m Hj Hu. rewrite Z.add_0_r. eapply est_col; [exact He|exact Hu| |].
      + intros i Hi. unfold mdom, pos; cbn. lia.
      + intros m' Hu'. eapply U_ext; [|exact Hu']. intros i' j'; unfold mdom, pos; cbn. lia.
    - intros m Hu. apply HQ. eapply U_ext; [|exact Hu]. intros i' j'; unfold mdom, pos; cbn. lia.
  Qed.

  Lemma est_upper_wp : forall L A m0 F e (Q : unit -> (Z -> T) -> Prop), wf A -> est L A m0 F e ->
    (forall m', U A m0 F (fun q => mdom A q /\ fst q <= snd q) m' -> Q tt m') ->
    wp (unroll4c (cols A)
      (fun j =>
         for_up 0 (Z.min (j + 1) (rows A)) 1 (fun i => e i (j + 0) ;; e i (j + 1) ;; e i (j + 2) ;; e i (j + 3)) ;;
         for_up (j + 1) (Z.min (j + 4) (rows A)) 1 (fun i => for_up i (j + 4) 1 (fun k => e i k)))
      (fun j => for_up 0 (Z.min (j + 1) (rows A)) 1 (fun i => e i (j + 0)))) L m0 Q.
  Proof.
    intros L A m0 F e Q WA He HQ. pose proof WA as (H1 & H2 & H3).
    apply wp_unroll4c with (I := fun j m => U A m0 F (fun q => mdom A q /\ fst q <= snd q /\ snd q < j) m); auto.
    - eapply U_ext; [|apply U_nil]. intros i j; unfold mdom, pos; cbn; lia.
    - intros j m Hj Hj3 Hu. wbind. eapply est_col4; [exact He|exact Hu| |].
      { intros i k Hi Hk. unfold mdom, pos; cbn. lia. }
      clear m Hu. intros m Hu.
      apply wp_for1 with (I := fun k m => U A m0 F (fun q => mdom A q /\ fst q <= snd q /\
          snd q < j + 4 /\ (snd q < j \/ fst q < k)) m).
      + eapply U_ext; [|exact Hu]. intros i k; unfold mdom, pos; cbn; lia.
      + clear m Hu. intros k m Hk Hu. eapply est_row; [exact He|exact Hu| |].
        * intros i Hi. unfold mdom, pos; cbn. lia.
        * intros m' Hu'. eapply U_ext; [|exact Hu']. intros i' j'; unfold mdom, pos; cbn. lia.
      + clear m Hu. intros m Hu. eapply U_ext; [|exact Hu]. intros i' j'; unfold mdom, pos; cbn. lia.
    - intros j m Hj Hu. rewrite Z.add_0_r. eapply est_col; [exact He|exact Hu| |].
      + intros i Hi. unfold mdom, pos; cbn. lia.
      + intros m' Hu'. eapply U_ext; [|exact Hu']. intros i' j'; unfold mdom, pos; cbn. lia.
    - intros m Hu. apply HQ. eapply U_ext; [|exact Hu]. intros i' j'; unfold mdom, pos; cbn. lia.
  Qed.

  (* a proper matrix with an equally large one *)
  Lemma mplus_spec : forall L m alpha A beta B flags (sel : Z -> Z -> bool) (tr : bool) (g : T -> T),
    wf A -> allocated L A -> wf B -> allocated L B -> disjoint A B ->
    0 < rows A -> 0 < cols A -> ~ (isvec A /\ isvec B) ->
    let s := Z.land flags (ARMAS_LOWER + ARMAS_UPPER) in
    tr = has flags (ARMAS_TRANS + ARMAS_TRANSB) ->
    g = (if has flags ARMAS_ABSA then abs K else fun x => x) ->
    rows B = (if tr then cols A else rows A) -> cols B = (if tr then rows A else cols A) ->
    (s = ARMAS_LOWER -> tr = false /\ sel = fun i j => j <=? i) ->
    (s = ARMAS_UPPER -> tr = false /\ sel = fun i j => i <=? j) ->
    (s <> ARMAS_UPPER -> s <> ARMAS_LOWER -> sel = fun i j => true) ->
    exists m', armas_mplus K alpha A beta B flags L m = Some (0, m') /\
      (forall i j, pos A i j -> elt m' A i j =
         if sel i j then alpha *' g (elt m A i j) +' beta *' g (if tr then elt m B j i else elt m B i j)
         else elt m A i j) /\ only_changes A m m'.
  Proof.
    intros L m alpha A beta B flags sel tr g WA LA WB LB D Hr Hc HV s Etr Eg ER EC H1 H2 H3.
    assert (W : wp (armas_mplus K alpha A beta B flags) L m (fun r m' => r = 0 /\
      (forall i j, pos A i j -> elt m' A i j =
         if sel i j then alpha *' g (elt m A i j) +' beta *' g (if tr then elt m B j i else elt m B i j)
         else elt m A i j) /\ only_changes A m m')).
    { unfold armas_mplus. rewrite <- Etr, <- Eg. fold s. cbv zeta.
      assert (SA : 0 < rows A * cols A) by nia.
      assert (SB : rows B * cols B = rows A * cols A) by (rewrite ER, EC; destruct tr; nia).
      replace (armas_size A =? 0) with false by (unfold armas_size; lia).
      replace (armas_size B =? 0) with false by (unfold armas_size; lia). cbn [orb].
      assert (NV : ~ (rows A = 1 /\ cols A = 1)).
      { intros (E1 & E2). apply HV. unfold isvec. destruct tr; lia. }
      replace (armas_size B =? 1) with false by (unfold armas_size; nia).
      replace (armas_isvector A && armas_isvector B) with false.
      2:{ symmetry. apply not_true_is_false. intros E. apply andb_true_iff in E.
          rewrite !isvector_isvec in E. auto. }
      apply wp_if; intros E0; [exfalso; destruct tr; lia|]. wbind.
      apply wp_if; intros E1; [|apply wp_if; intros E2].
      - destruct H1 as (-> & ->); [lia|]. unfold madd_lower. cbv zeta.
        apply est_lower_wp with (F := fun p => alpha *' g (m (mad A p)) +' beta *' g (m (mad B p)))
          (e := fun i k => plus1 K g alpha beta (elems A + (i + k * step A)) (elems B + (i + k * step B))); auto.
        { apply est_plus; auto; lia. }
        intros m' Hu. apply wp_ret. split; [auto|].
        apply (U_end A m _ WA _ (fun i j => j <=? i) m' Hu).
        intros i j Hp. unfold mdom. cbn [fst snd]. unfold pos in *. lia.
      - destruct H2 as (-> & ->); [lia|]. unfold madd_upper. cbv zeta.
        apply est_upper_wp with (F := fun p => alpha *' g (m (mad A p)) +' beta *' g (m (mad B p)))
          (e := fun i k => plus1 K g alpha beta (elems A + (i + k * step A)) (elems B + (i + k * step B))); auto.
        { apply est_plus; auto; lia. }
        intros m' Hu. apply wp_ret. split; [auto|].
        apply (U_end A m _ WA _ (fun i j => i <=? j) m' Hu).
        intros i j Hp. unfold mdom. cbn [fst snd]. unfold pos in *. lia.
      - rewrite H3 by lia. unfold madd. rewrite <- Etr. cbv zeta. destruct tr.
        + apply est_all4 with (F := fun p => alpha *' g (m (mad A p)) +' beta *' g (m (mad B (snd p, fst p))))
            (e := fun i k => plus1 K g alpha beta (elems A + (i + k * step A)) (elems B + (k + i * step B))); auto.
          { apply est_plus_t; auto; lia. }
          intros m' Hu. apply wp_ret. split; [auto|].
          apply (U_end A m _ WA _ (fun i j => true) m' Hu). intros i j Hp; split; auto.
        + apply est_all4 with (F := fun p => alpha *' g (m (mad A p)) +' beta *' g (m (mad B p)))
            (e := fun i k => plus1 K g alpha beta (elems A + (i + k * step A)) (elems B + (i + k * step B))); auto.
          { apply est_plus; auto; lia. }
          intros m' Hu. apply wp_ret. split; [auto|].
          apply (U_end A m _ WA _ (fun i j => true) m' Hu). intros i j Hp; split; auto. }
    destruct W as (r & m' & E & -> & H). eauto.
  Qed.

  (* ---------------------------------------------------------------- *)
  (* set_values, make_trm, apply *)

  Lemma set_values_sel : forall L m A value flags unit (sel : Z -> Z -> bool), wf A -> allocated L A ->
    let s := Z.land flags (ARMAS_UPPER + ARMAS_LOWER + ARMAS_SYMM) in
    unit = has flags ARMAS_UNIT -> s <> ARMAS_SYMM ->
    (s = ARMAS_UPPER -> sel = fun i j => if unit then i <? j else i <=? j) ->
    (s = ARMAS_LOWER -> sel = fun i j => if unit then j <? i else j <=? i) ->
    (s <> ARMAS_UPPER -> s <> ARMAS_LOWER -> sel = fun i j => true) ->
    exists m', armas_set_values K A value flags L m = Some (0, m') /\
      (forall i j, pos A i j -> elt m' A i j = if sel i j then value i j else elt m A i j) /\
      only_changes A m m'.
  Proof.
    intros L m A value flags unit sel WA LA s En H0 H1 H2 H3. pose proof WA as (WA1 & WA2 & WA3).
    assert (W : wp (armas_set_values K A value flags) L m (fun r m' => r = 0 /\
      (forall i j, pos A i j -> elt m' A i j = if sel i j then value i j else elt m A i j) /\
      only_changes A m m')).
    { pose proof (est_set L A m value WA LA) as He.
      unfold armas_set_values. fold s. cbv zeta. rewrite <- En.
      apply wp_if; intros E1; [|apply wp_if; intros E2; [|apply wp_if; intros E3; [lia|]]].
      - rewrite H1 by lia. wbind.
        apply wp_for1 with (I := fun j mm => U A m (fun p => value (fst p) (snd p))
          (fun q => mdom A q /\ snd q < j /\ (if unit then fst q < snd q else fst q <= snd q)) mm).
        + eapply U_ext; [|apply U_nil]. intros i j; unfold mdom, pos; cbn; dbool_lia.
        + intros j mm Hj Hu. wbind. eapply est_col with (e := fun i j => armas_set_unsafe A i j (value i j)); [exact He|exact Hu| |].
          { intros i Hi. unfold mdom, pos; cbn. lia. }
          clear mm Hu. intros mm Hu. apply wp_when; intros E.
          * apply (He _ _ j j _ Hu); unfold mdom, pos; cbn [fst snd]; [lia|lia|].
            intros m' Hu'. eapply U_ext; [|exact Hu']. intros i' j'; cbn [fst snd]. destruct unit; lia.
          * eapply U_ext; [|exact Hu]. intros i' j'; unfold mdom, pos; cbn [fst snd]. destruct unit; lia.
        + intros m' Hu. apply wp_ret. split; [auto|].
          apply (U_end A m _ WA _ (fun i j => if unit then i <? j else i <=? j) m' Hu).
          intros i j Hp. unfold mdom. cbn [fst snd]. unfold pos in *. destruct unit; lia.
      - rewrite H2 by lia. wbind.
        apply wp_for1 with (I := fun j mm => U A m (fun p => value (fst p) (snd p))
          (fun q => mdom A q /\ snd q < j /\ (if unit then snd q < fst q else snd q <= fst q)) mm).
        + eapply U_ext; [|apply U_nil]. intros i j; unfold mdom, pos; cbn; dbool_lia.
        + intros j mm Hj Hu. wbind. apply wp_when; intros E.
          * apply (He _ _ j j _ Hu); unfold mdom, pos; cbn [fst snd]; [lia|lia|].
            clear mm Hu. intros mm Hu. eapply est_col with (e := fun i j => armas_set_unsafe A i j (value i j)); [exact He|exact Hu| |].
            { intros i Hi. unfold mdom, pos; cbn. lia. }
            intros m' Hu'. eapply U_ext; [|exact Hu']. intros i' j'; cbn [fst snd]. destruct unit; lia.
          * eapply est_col with (e := fun i j => armas_set_unsafe A i j (value i j)); [exact He|exact Hu| |].
            { intros i Hi. unfold mdom, pos; cbn. lia. }
            intros m' Hu'. eapply U_ext; [|exact Hu']. intros i' j'; unfold mdom, pos; cbn [fst snd]. destruct unit; lia.
        + intros m' Hu. apply wp_ret. split; [auto|].
          apply (U_end A m _ WA _ (fun i j => if unit then j <? i else j <=? i) m' Hu).
          intros i j Hp. unfold mdom. cbn [fst snd]. unfold pos in *. destruct unit; lia.
      - rewrite H3 by lia. wbind.
        apply (est_cols L A m _ (fun i j => armas_set_unsafe A i j (value i j)) (fun _ => 0) (fun _ => rows A) (cols A) _ He).
        + intros; unfold pos; lia.
        + intros m' Hu. apply wp_ret. split; [auto|].
          apply (U_end A m _ WA _ (fun i j => true) m' Hu).
          intros i j Hp. cbn [fst snd]. unfold pos in Hp. split; auto. lia. }
    destruct W as (r & m' & E & -> & H). eauto.
  Qed.

  Lemma set_values_symm : forall L m A value flags unit, wf A -> allocated L A ->
    Z.land flags (ARMAS_UPPER + ARMAS_LOWER + ARMAS_SYMM) = ARMAS_SYMM ->
    unit = has flags ARMAS_UNIT -> rows A = cols A ->
    exists m', armas_set_values K A value flags L m = Some (0, m') /\
      (forall i j, pos A i j -> elt m' A i j =
         if (i =? j) && unit then one K else if j <=? i then value i j else value j i) /\
      only_changes A m m'.
  Proof.
    intros L m A value flags unit WA LA Hs En Hsq. pose proof WA as (WA1 & WA2 & WA3).
    set (F := fun p => if (fst p =? snd p) && unit then one K
      else if snd p <=? fst p then value (fst p) (snd p) else value (snd p) (fst p)).
    assert (W : wp (armas_set_values K A value flags) L m (fun r m' => r = 0 /\
      (forall i j, pos A i j -> elt m' A i j = F (i, j)) /\ only_changes A m m')).
    { unfold armas_set_values. cbv zeta. rewrite Hs, <- En.
      change (ARMAS_SYMM =? ARMAS_UPPER) with false. change (ARMAS_SYMM =? ARMAS_LOWER) with false.
      change (ARMAS_SYMM =? ARMAS_SYMM) with true. cbv iota.
      apply wp_if; intros E0; [lia|]. wbind.
      apply wp_for1 with (I := fun j mm => U A m F (fun q => mdom A q /\ (snd q < j \/ fst q < j)) mm).
      - eapply U_ext; [|apply U_nil]. intros i j; unfold mdom, pos; cbn; lia.
      - intros j mm Hj Hu. wbind.
        eapply U_wr with (A := A) (i := j) (j := j); eauto; [unfold pos; lia|unfold mad; cbn; lia| |].
        { unfold F; cbn [fst snd]. rewrite Z.eqb_refl, Z.leb_refl. reflexivity. }
        clear mm Hu. intros mm Hu.
        apply wp_for1 with (I := fun i mm => U A m F (fun q => mdom A q /\ (snd q < j \/ fst q < j \/
           (snd q = j /\ fst q < i) \/ (fst q = j /\ snd q < i))) mm).
        + eapply U_ext; [|exact Hu]. intros i' j'; unfold mdom, pos; cbn [fst snd]. lia.
        + clear mm Hu. intros i mm Hi Hu. wbind. unfold armas_set_unsafe, armas_get_unsafe.
          eapply U_wr with (A := A) (i := i) (j := j); eauto; [unfold pos; lia|unfold mad; cbn; lia| |].
          { unfold F; cbn [fst snd]. replace (i =? j) with false by lia. replace (j <=? i) with true by lia. reflexivity. }
          clear mm Hu. intros mm Hu. wbind.
          eapply U_rd with (A := A) (i := i) (j := j); eauto; [unfold pos; lia|unfold mad; cbn; lia|].
          eapply U_wr with (A := A) (i := j) (j := i); eauto; [unfold pos; lia|unfold mad; cbn; lia| |].
          { destruct Hu as (Hu & _). rewrite (upd_new _ _ _ _ _ (i, j) Hu) by (cbn; lia).
            unfold F; cbn [fst snd]. replace (i =? j) with false by lia. replace (j =? i) with false by lia.
            replace (j <=? i) with true by lia. replace (i <=? j) with false by lia. reflexivity. }
          intros m' Hu'. eapply U_ext; [|exact Hu']. intros i' j'; unfold mdom, pos; cbn [fst snd]. lia.
        + clear mm Hu. intros mm Hu. eapply U_ext; [|exact Hu]. intros i' j'; unfold mdom, pos; cbn [fst snd]. lia.
      - intros m' Hu. apply wp_ret. split; [auto|].
        apply (U_end A m _ WA _ (fun i j => true) m' Hu).
        intros i j Hp. unfold mdom. cbn [fst snd]. unfold pos in *. split; auto. lia. }
    destruct W as (r & m' & E & -> & H). eauto.
  Qed.

  Lemma make_trm_spec : forall L m A flags unit upper, wf A -> allocated L A ->
    unit = has flags ARMAS_UNIT -> upper = has flags ARMAS_UPPER ->
    (upper = false -> has flags ARMAS_LOWER = true) ->
    (upper = true -> unit = true -> cols A <= rows A) ->
    exists m', armas_make_trm K A flags L m = Some (tt, m') /\
      (forall i j, pos A i j -> elt m' A i j =
         if (i =? j) && unit then one K
         else if (if upper then j <? i else i <? j) then zero K else elt m A i j) /\
      only_changes A m m'.
  Proof.
    intros L m A flags unit upper WA LA En Eu HL Hc. pose proof WA as (WA1 & WA2 & WA3).
    set (F := fun p : Z * Z => if fst p =? snd p then one K else zero K).
    assert (W : wp (armas_make_trm K A flags) L m (fun r m' =>
      (forall i j, pos A i j -> elt m' A i j =
         if ((i =? j) && unit) || (if upper then j <? i else i <? j) then F (i, j) else elt m A i j) /\
      only_changes A m m')).
    { unfold armas_make_trm. rewrite <- En, <- Eu. apply wp_if; intros E1.
      - rewrite E1.
        apply wp_for1 with (I := fun j mm => U A m F (fun q => mdom A q /\ snd q < j /\
            (snd q < fst q \/ (unit = true /\ fst q = snd q))) mm).
        + eapply U_ext; [|apply U_nil]. intros i j; unfold mdom, pos; cbn [fst snd]; lia.
        + intros j mm Hj Hu. wbind.
          assert (Hcol : forall S mm, U A m F S mm ->
             (forall i, j + 1 <= i < rows A -> ~ S (i, j)) ->
             wp (for_up (j + 1) (rows A) 1 (fun i => armas_set_unsafe A i j (zero K))) L mm
               (fun _ => U A m F (fun q => S q \/ (snd q = j /\ j + 1 <= fst q < rows A)))).
          { clear mm Hu. intros S mm Hu HS.
            apply wp_for1 with (I := fun i mm => U A m F (fun q => S q \/ (snd q = j /\ j + 1 <= fst q < i)) mm).
            - eapply U_ext; [|exact Hu]. intros i' j'; usplit.
            - clear mm Hu. intros i mm Hi Hu. unfold armas_set_unsafe.
              eapply U_wr with (A := A) (i := i) (j := j); eauto; [unfold pos; lia|unfold mad; cbn; lia| |].
              { unfold F; cbn [fst snd]. replace (i =? j) with false by lia. reflexivity. }
              intros m' Hu'. eapply U_ext; [|exact Hu']. intros i' j'.
              destruct (Z.eq_dec i' i), (Z.eq_dec j' j); usplit.
            - intros m' Hu'. eapply U_ext; [|exact Hu']. intros i' j'; usplit. }
          apply wp_when; intros E.
          * unfold armas_set_unsafe at 1.
            eapply U_wr with (A := A) (i := j) (j := j); eauto;
              [unfold pos; specialize (Hc E1 E); lia|unfold mad; cbn; lia| |].
            { unfold F; cbn [fst snd]. rewrite Z.eqb_refl. reflexivity. }
            clear mm Hu. intros mm Hu. eapply wp_conseq; [apply (Hcol _ _ Hu)|].
            { intros i Hi. unfold mdom, pos; cbn [fst snd]. lia. }
            intros x0 m' Hu'. eapply U_ext; [|exact Hu']. specialize (Hc E1 E).
            intros i' j'; unfold mdom, pos; cbn [fst snd]. lia.
          * eapply wp_conseq; [apply (Hcol _ _ Hu)|].
            { intros i Hi. unfold mdom, pos; cbn [fst snd]. lia. }
            intros x0 m' Hu'. eapply U_ext; [|exact Hu'].
            intros i' j'; unfold mdom, pos; cbn [fst snd]. lia.
        + intros m' Hu.
          apply (U_end A m _ WA _ (fun i j => ((i =? j) && unit) || (j <? i)) m' Hu).
          intros i j Hp. unfold mdom. cbn [fst snd]. unfold pos in *. lia.
      - rewrite E1, HL by auto.
        apply wp_for1 with (I := fun j mm => U A m F (fun q => mdom A q /\ snd q < j /\
            (fst q < snd q \/ (unit = true /\ fst q = snd q))) mm).
        + eapply U_ext; [|apply U_nil]. intros i j; unfold mdom, pos; cbn [fst snd]; lia.
        + intros j mm Hj Hu. wbind.
          apply wp_for1 with (I := fun i mm => U A m F (fun q => (mdom A q /\ snd q < j /\
            (fst q < snd q \/ (unit = true /\ fst q = snd q))) \/ (snd q = j /\ 0 <= fst q < i)) mm).
          { eapply U_ext; [|exact Hu]. intros i' j'; unfold mdom, pos; cbn [fst snd]. lia. }
          { clear mm Hu. intros i mm Hi Hu. unfold armas_set_unsafe.
            eapply U_wr with (A := A) (i := i) (j := j); eauto; [unfold pos; lia|unfold mad; cbn; lia| |].
            { unfold F; cbn [fst snd]. replace (i =? j) with false by lia. reflexivity. }
            intros m' Hu'. eapply U_ext; [|exact Hu']. intros i' j'; unfold mdom, pos; cbn [fst snd]. lia. }
          clear mm Hu. intros mm Hu. apply wp_when; intros E.
          * unfold armas_set_unsafe.
            eapply U_wr with (A := A) (i := j) (j := j); eauto; [unfold pos; lia|unfold mad; cbn; lia| |].
            { unfold F; cbn [fst snd]. rewrite Z.eqb_refl. reflexivity. }
            intros m' Hu'. eapply U_ext; [|exact Hu']. intros i' j'; unfold mdom, pos; cbn [fst snd]. lia.
          * eapply U_ext; [|exact Hu]. intros i' j'; unfold mdom, pos; cbn [fst snd]. lia.
        + intros m' Hu.
          apply (U_end A m _ WA _ (fun i j => ((i =? j) && unit) || (i <? j)) m' Hu).
          intros i j Hp. unfold mdom. cbn [fst snd]. unfold pos in *. lia. }
    destruct W as ([] & m' & E & H1 & H2). exists m'. split; [auto|]. split; [|auto].
    intros i j Hp. rewrite H1 by auto. unfold F; cbn [fst snd].
    destruct (i =? j) eqn:E1; destruct unit; destruct upper; cbn [andb orb].
    all: try reflexivity.
    - replace (j <? i) with false by lia. reflexivity.
    - replace (i <? j) with false by lia. reflexivity.
  Qed.

  Lemma apply_spec : forall L m A (oper : T -> T) flags (sel : Z -> Z -> bool), wf A -> allocated L A ->
    let s := Z.land flags (ARMAS_LOWER + ARMAS_UPPER) in
    (s = ARMAS_UPPER -> cols A <= rows A /\ sel = fun i j => i <=? j) ->
    (s = ARMAS_LOWER -> sel = fun i j => j <=? i) ->
    (s <> ARMAS_UPPER -> s <> ARMAS_LOWER -> sel = fun i j => true) ->
    exists m', armas_apply A oper flags L m = Some (0, m') /\
      (forall i j, pos A i j -> elt m' A i j = if sel i j then oper (elt m A i j) else elt m A i j) /\
      only_changes A m m'.
  Proof.
    intros L m A oper flags sel WA LA s H1 H2 H3.
    assert (W : wp (armas_apply A oper flags) L m (fun r m' => r = 0 /\
      (forall i j, pos A i j -> elt m' A i j = if sel i j then oper (elt m A i j) else elt m A i j) /\
      only_changes A m m')).
    { unfold armas_apply. fold s. cbv zeta. apply wp_if; intros E0.
      { apply wp_ret. split; [auto|]. split; [|intros a _; reflexivity].
        intros i j Hp. exfalso. unfold pos, armas_size in *. nia. }
      pose proof (est_apply L A m oper WA LA) as He.
      set (e := fun i j => v <- armas_get_unsafe A i j ;; armas_set_unsafe A i j (oper v)) in *.
      apply wp_if; intros E1; [|apply wp_if; intros E2].
      - wbind. apply (est_cols L A m _ e (fun j => j) (fun _ => rows A) (cols A) _ He).
        + intros; unfold pos; lia.
        + intros m' Hu. apply wp_ret. split; [auto|]. rewrite H2 by lia.
          apply (U_end A m _ WA _ (fun i j => j <=? i) m' Hu).
          intros i j Hp. cbn [fst snd]. unfold pos in Hp. lia.
      - destruct H1 as (Hc & ->); [lia|].
        wbind. apply (est_cols L A m _ e (fun j => 0) (fun j => j + 1) (cols A) _ He).
        + intros; unfold pos; lia.
        + intros m' Hu. apply wp_ret. split; [auto|].
          apply (U_end A m _ WA _ (fun i j => i <=? j) m' Hu).
          intros i j Hp. cbn [fst snd]. unfold pos in Hp. lia.
      - rewrite H3 by lia.
        wbind. apply (est_cols L A m _ e (fun j => 0) (fun _ => rows A) (cols A) _ He).
        + intros; unfold pos; lia.
        + intros m' Hu. apply wp_ret. split; [auto|].
          apply (U_end A m _ WA _ (fun i j => true) m' Hu).
          intros i j Hp. cbn [fst snd]. unfold pos in Hp. split; auto. lia. }
    destruct W as (r & m' & E & -> & H). eauto.
  Qed.

  (* column by column, the generator is called once for each element *)
  Lemma set_all_spec : forall L m A (gen : Z -> T) flags, wf A -> allocated L A ->
    let s := Z.land flags (ARMAS_UPPER + ARMAS_LOWER + ARMAS_SYMM) in
    s <> ARMAS_UPPER -> s <> ARMAS_LOWER -> s <> ARMAS_SYMM ->
    exists m', armas_set_all K A gen flags L m = Some ((0, rows A * cols A), m') /\
      (forall i j, pos A i j -> elt m' A i j = gen (j * rows A + i)) /\ only_changes A m m'.
  Proof.
    intros L m A gen flags WA LA s H1 H2 H3. pose proof WA as (WA1 & WA2 & WA3).
    set (F := fun p => gen (snd p * rows A + fst p)).
    assert (W : wp (armas_set_all K A gen flags) L m (fun r m' => r = (0, rows A * cols A) /\
      (forall i j, pos A i j -> elt m' A i j = F (i, j)) /\ only_changes A m m')).
    { unfold armas_set_all. fold s. cbv zeta.
      apply wp_if; intros E1; [lia|]. apply wp_if; intros E2; [lia|]. apply wp_if; intros E3; [lia|]. wbind.
      apply wp_for1_acc with (I := fun j k mm => k = j * rows A /\
          U A m F (fun q => mdom A q /\ snd q < j) mm).
      - split; [lia|]. eapply U_ext; [|apply U_nil]. intros i j; unfold mdom, pos; cbn [fst snd]; lia.
      - intros j k mm Hj (Hk & Hu).
        apply wp_for1_acc with (I := fun i k mm => k = j * rows A + i /\
          U A m F (fun q => mdom A q /\ (snd q < j \/ (snd q = j /\ fst q < i))) mm).
        + split; [lia|]. eapply U_ext; [|exact Hu]. intros i' j'; unfold mdom, pos; cbn [fst snd]. lia.
        + clear mm k Hk Hu. intros i k mm Hi (Hk & Hu). wbind. unfold armas_set_unsafe.
          eapply U_wr with (A := A) (i := i) (j := j); eauto; [unfold pos; lia|unfold mad; cbn; lia| |].
          { unfold F; cbn [fst snd]. f_equal. lia. }
          intros m' Hu'. apply wp_ret. split; [lia|].
          eapply U_ext; [|exact Hu']. intros i' j'; unfold mdom, pos; cbn [fst snd]. lia.
        + clear mm k Hk Hu. intros k mm (Hk & Hu). split; [nia|].
          eapply U_ext; [|exact Hu]. intros i' j'; unfold mdom, pos; cbn [fst snd]. lia.
      - intros k mm (Hk & Hu). apply wp_ret. split; [f_equal; nia|].
        apply (U_end A m _ WA _ (fun i j => true) mm Hu).
        intros i j Hp. unfold mdom. cbn [fst snd]. unfold pos in *. split; auto. lia. }
    destruct W as (r & m' & E & -> & H). eauto.
  Qed.
End P.
