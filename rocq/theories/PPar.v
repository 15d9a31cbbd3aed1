(* PPar.v: programs that write only to their own addresses do not disturb each other. *)
From Coq Require Import ZArith Lia Bool List Arith.
From Verif Require Import Mem Hoare MPar.
Import ListNotations.
Local Open Scope Z_scope.
Local Open Scope prog_scope.

(* every write of c is at an address in W, whatever the values read *)
Fixpoint wfoot {T A} (W : Z -> Prop) (c : M T A) : Prop :=
  match c with
  | ret _ => True
  | fail => True
  | rdk _ k => forall x, wfoot W (k x)
  | wrk a _ k => W a /\ wfoot W k
  end.

Section Foot.
  Context {T : Type}.
  Implicit Types (W : Z -> Prop).

  Lemma wf_mono : forall A W W' (c : M T A), (forall a, W a -> W' a) -> wfoot W c -> wfoot W' c.
  Proof.
    intros A W W' c H. induction c as [x| |p k IH|p v k IH]; cbn [wfoot]; auto. intros (H1 & H2); auto.
  Qed.

  Lemma wf_bind : forall A B W (c : M T A) (f : A -> M T B),
    wfoot W c -> (forall x, wfoot W (f x)) -> wfoot W (bind c f).
  Proof.
    intros A B W c f. induction c as [x| |p k IH|p v k IH]; cbn [wfoot bind]; auto. intros (H1 & H2) H; auto.
  Qed.

  Lemma wf_if : forall A W (b : bool) (c d : M T A), (b = true -> wfoot W c) -> (b = false -> wfoot W d) -> wfoot W (if b then c else d).
  Proof. intros A W [] c d H1 H2; auto. Qed.

  Lemma wf_when : forall W (b : bool) (c : M T unit), (b = true -> wfoot W c) -> wfoot W (when b c).
  Proof. intros W [] c H; cbn; auto. Qed.

  Lemma wf_iter : forall A W (f : Z -> A -> M T A) s n i a,
    (forall k a, 0 <= k < Z.of_nat n -> wfoot W (f (i + s * k) a)) -> wfoot W (iter n i s f a).
  Proof.
    intros A W f s. induction n as [|n IH]; intros i a H; cbn [iter]; [exact I|].
    apply wf_bind.
    - specialize (H 0 a). rewrite Z.mul_0_r, Z.add_0_r in H. apply H. lia.
    - intros x. apply IH. intros k y Hk. replace (i + s + s * k) with (i + s * (k + 1)) by lia. apply H. lia.
  Qed.

  (* the index runs through lo, lo+s, ... below hi *)
  Lemma wf_for_acc : forall A W (f : Z -> A -> M T A) lo hi s a, 0 < s ->
    (forall i a, lo <= i < hi -> wfoot W (f i a)) -> wfoot W (for_acc lo hi s f a).
  Proof.
    intros A W f lo hi s a Hs H. unfold for_acc. destruct (Z_lt_dec hi lo) as [Hl|Hl].
    { rewrite trips_0 by lia. exact I. }
    apply wf_iter. intros k x Hk. apply H. destruct (trips_bounds lo hi s Hs ltac:(lia)) as (_ & X). specialize (X k Hk).
    assert (0 <= s * k) by nia. lia.
  Qed.

  Lemma wf_for_up : forall W (f : Z -> M T unit) lo hi s, 0 < s ->
    (forall i, lo <= i < hi -> wfoot W (f i)) -> wfoot W (for_up lo hi s f).
  Proof. intros. apply wf_for_acc; auto. Qed.

  Lemma tail_range : forall N, loop_end 0 (N - 3) 4 <= Z.max 0 N /\ 0 <= loop_end 0 (N - 3) 4 /\ N - loop_end 0 (N - 3) 4 <= 3.
  Proof.
    intros N. destruct (Z_lt_dec (N - 3) 0) as [H|H].
    - unfold loop_end. rewrite trips_0 by lia. lia.
    - destruct (trips_bounds 0 (N - 3) 4 ltac:(lia) ltac:(lia)) as (X & _). lia.
  Qed.

  Lemma wf_unroll4_acc : forall A W N (b4 f : Z -> A -> M T A) a,
    (forall i a, 0 <= i < N - 3 -> wfoot W (b4 i a)) -> (forall i a, 0 <= i < N -> wfoot W (f i a)) ->
    wfoot W (unroll4_acc N b4 f a).
  Proof.
    intros A W N b4 f a H1 H2. unfold unroll4_acc. apply wf_bind; [apply wf_for_acc; auto; lia|].
    intros x. destruct (tail_range N) as (R1 & R2 & R3). unfold tail3.
    set (r := N - loop_end 0 (N - 3) 4) in *. set (e := loop_end 0 (N - 3) 4) in *.
    apply wf_if; intros E3; [|apply wf_if; intros E2; [|apply wf_if; intros E1; [|exact I]]];
      repeat (apply wf_bind; [apply H2; lia|intros ?]); apply H2; lia.
  Qed.

  Lemma wf_unroll4 : forall W N (b4 f : Z -> M T unit),
    (forall i, 0 <= i < N - 3 -> wfoot W (b4 i)) -> (forall i, 0 <= i < N -> wfoot W (f i)) ->
    wfoot W (unroll4 N b4 f).
  Proof. intros. apply wf_unroll4_acc; auto. Qed.

  Lemma wf_unroll4c : forall W N (b4 f : Z -> M T unit),
    (forall i, 0 <= i < N - 3 -> wfoot W (b4 i)) -> (forall i, 0 <= i < N -> wfoot W (f i)) ->
    wfoot W (unroll4c N b4 f).
  Proof.
    intros W N b4 f H1 H2. unfold unroll4c. destruct (tail_range N) as (R1 & R2 & R3).
    apply wf_bind; [apply wf_for_up; auto; lia|]. intros _. apply wf_for_up; [lia|]. intros i Hi. apply H2. lia.
  Qed.

  Lemma wf_rd : forall W p, wfoot W (rd p : M T T).
  Proof. intros W p x. exact I. Qed.
  Lemma wf_wr : forall W p (v : T), W p -> wfoot W (wr p v).
  Proof. intros W p v H. split; [exact H|exact I]. Qed.
  Lemma wf_tasks : forall W (l : list (M T unit)), (forall c, In c l -> wfoot W c) -> wfoot W (run_tasks l).
  Proof.
    intros W. induction l as [|c l IH]; intros H; cbn [run_tasks]; [exact I|]. apply wf_bind; [apply H; left; auto|].
    intros _. apply IH. intros d Hd. apply H. right; auto.
  Qed.

  (* a program sees only what it may access *)
  Lemma run_agree : forall A (c : M T A) L (m m' : Z -> T) x s, (forall a, L a = true -> m a = m' a) ->
    c L m = Some (x, s) -> exists s', c L m' = Some (x, s') /\ (forall a, L a = true -> s a = s' a).
  Proof.
    intros A c L. induction c as [y| |p k IH|p v k IH]; intros m m' x s Hm; cbn [run].
    - intros E. injection E as <- <-. eauto.
    - discriminate.
    - destruct (L p) eqn:E; [|discriminate]. intros R. rewrite <- (Hm p E). apply (IH (m p) m m'); auto.
    - destruct (L p) eqn:E; [|discriminate]. apply IH. intros a Ha. destruct (a =? p); auto.
  Qed.

  Lemma run_mono : forall A (c : M T A) L L' (m : Z -> T) r, (forall a, L a = true -> L' a = true) ->
    c L m = Some r -> c L' m = Some r.
  Proof.
    intros A c L L'. induction c as [y| |p k IH|p v k IH]; intros m r H; cbn [run]; auto.
    - destruct (L p) eqn:E; [|discriminate]. rewrite (H p E). intros R. apply IH; auto.
    - destruct (L p) eqn:E; [|discriminate]. rewrite (H p E). intros R. apply IH; auto.
  Qed.

  (* nothing changes outside of the addresses written *)
  Lemma wf_only : forall A (c : M T A) W L (m : Z -> T) x s a, wfoot W c -> c L m = Some (x, s) -> ~ W a -> s a = m a.
  Proof.
    intros A c W L. induction c as [y| |p k IH|p v k IH]; intros m x s a; cbn [run wfoot].
    - intros _ E _. injection E as _ <-. reflexivity.
    - discriminate.
    - destruct (L p) eqn:E; [|discriminate]. intros Hw R Ha. apply (IH (m p) m x s a); auto.
    - destruct (L p) eqn:E; [|discriminate]. intros (Hp & Hw) R Ha. rewrite (IH _ x s a Hw R Ha).
      destruct (a =? p) eqn:Ea; auto. apply Z.eqb_eq in Ea. subst. tauto.
  Qed.

  (* number of accesses *)
  Fixpoint steps {A} (c : M T A) (L : Z -> bool) (m : Z -> T) : nat :=
    match c with
    | ret _ => 0
    | fail => 0
    | rdk p k => S (steps (k (m p)) L m)
    | wrk p v k => S (steps k L (fun a => if a =? p then v else m a))
    end.

  Lemma steps_agree : forall A (c : M T A) L (m m' : Z -> T) r, (forall a, L a = true -> m a = m' a) ->
    c L m = Some r -> steps c L m = steps c L m'.
  Proof.
    intros A c L. induction c as [y| |p k IH|p v k IH]; intros m m' r Hm; cbn [run steps]; auto.
    - destruct (L p) eqn:E; [|discriminate]. intros R. rewrite <- (Hm p E). f_equal. apply (IH (m p) m m' r); auto.
    - destruct (L p) eqn:E; [|discriminate]. intros R. f_equal. eapply IH; [|exact R]. intros a Ha. destruct (a =? p); auto.
  Qed.
End Foot.

Definition nsum (n : nat) (f : nat -> nat) : nat := list_sum (map f (seq 0 n)).

Lemma nsum_S : forall n f, nsum (S n) f = (nsum n f + f n)%nat.
Proof.
  intros n f. unfold nsum. rewrite seq_S, map_app, list_sum_app. cbn. lia.
Qed.
Lemma nsum_ext : forall n f g, (forall i, (i < n)%nat -> f i = g i) -> nsum n f = nsum n g.
Proof.
  induction n as [|n IH]; intros f g H; [reflexivity|]. rewrite !nsum_S, (IH f g), H; auto.
Qed.
Lemma nsum_dec : forall n f g i, (i < n)%nat -> (forall j, (j < n)%nat -> j <> i -> f j = g j) -> f i = S (g i) ->
  nsum n f = S (nsum n g).
Proof.
  induction n as [|n IH]; intros f g i Hi H E; [lia|]. rewrite !nsum_S. destruct (Nat.eq_dec i n) as [->|Hn].
  - rewrite E, (nsum_ext n f g); [lia|]. intros j Hj. apply H; lia.
  - rewrite (IH f g i), (H n); try lia. intros j Hj. apply H. lia.
Qed.

Section Inter.
  Context {T : Type}.
  Variables (L : Z -> bool) (n : nat) (prog : @pool T) (Li : nat -> Z -> bool) (Wi : nat -> Z -> Prop)
    (m0 : Z -> T) (fin : nat -> Z -> T).
  Hypotheses (HW : forall i, (i < n)%nat -> wfoot (Wi i) (prog i))
    (HD : forall i j a, (i < n)%nat -> (j < n)%nat -> i <> j -> Wi i a -> Li j a = false)
    (HL : forall i a, (i < n)%nat -> Li i a = true -> L a = true)
    (HR : forall i, (i < n)%nat -> prog i (Li i) m0 = Some (tt, fin i)).

  Definition Inv (q : nat) (s : (Z -> T) * pool) : Prop :=
    (forall i, (i < n)%nat -> wfoot (Wi i) (snd s i) /\
       exists f, snd s i (Li i) (fst s) = Some (tt, f) /\ forall a, Li i a = true -> f a = fin i a) /\
    (forall a, (forall i, (i < n)%nat -> ~ Wi i a) -> fst s a = m0 a) /\
    (q + nsum n (fun i => steps (snd s i) (Li i) (fst s)) = nsum n (fun i => steps (prog i) (Li i) m0))%nat.

  Lemma Inv_init : Inv 0 (m0, prog).
  Proof.
    split; [|split]; cbn [fst snd].
    - intros i Hi. split; auto. exists (fin i). auto.
    - auto.
    - reflexivity.
  Qed.

  Lemma pset_same : forall (p : @pool T) i c, pset p i c i = c.
  Proof. intros. unfold pset. rewrite Nat.eqb_refl. reflexivity. Qed.
  Lemma pset_other : forall (p : @pool T) i j c, j <> i -> pset p i c j = p j.
  Proof. intros. unfold pset. destruct (Nat.eqb_spec j i); congruence. Qed.

  Lemma Inv_step : forall q s s', Inv q s -> pstep L n s s' -> Inv (S q) s'.
  Proof.
    intros q s s' (I1 & I2 & I3) Hs. destruct Hs as [m p i a k Hi E Ha|m p i a v k Hi E Ha]; cbn [fst snd] in *.
    - destruct (I1 i Hi) as (W1 & f & R & F). rewrite E in W1, R. cbn [wfoot run] in W1, R.
      destruct (Li i a) eqn:Ei; [|discriminate]. split; [|split]; cbn [fst snd]; auto.
      + intros j Hj. destruct (Nat.eq_dec j i) as [->|Hn]; [|rewrite pset_other by auto; auto].
        rewrite pset_same. split; auto. eauto.
      + rewrite <- I3. rewrite (nsum_dec n (fun j => steps (p j) (Li j) m) (fun j => steps (pset p i (k (m a)) j) (Li j) m) i);
          [lia|auto|intros j Hj Hn; rewrite pset_other by auto; auto|]. rewrite pset_same, E. reflexivity.
    - destruct (I1 i Hi) as (W1 & f & R & F). rewrite E in W1, R. cbn [wfoot run] in W1, R. destruct W1 as (W0 & W1).
      destruct (Li i a) eqn:Ei; [|discriminate].
      assert (Ag : forall j, (j < n)%nat -> j <> i -> forall b, Li j b = true -> m b = if b =? a then v else m b).
      { intros j Hj Hn b Hb. destruct (b =? a) eqn:Eb; auto. apply Z.eqb_eq in Eb. subst b.
        rewrite (HD i j a Hi Hj) in Hb; auto. discriminate. }
      split; [|split]; cbn [fst snd].
      + intros j Hj. destruct (Nat.eq_dec j i) as [->|Hn].
        * rewrite pset_same. split; auto. eauto.
        * rewrite pset_other by auto. destruct (I1 j Hj) as (Wj & fj & Rj & Fj). split; auto.
          destruct (run_agree _ (p j) (Li j) m (fun b => if b =? a then v else m b) tt fj (Ag j Hj Hn) Rj) as (f' & R' & A').
          exists f'. split; auto. intros b Hb. rewrite <- A' by auto. auto.
      + intros b Hb. destruct (b =? a) eqn:Eb; auto. apply Z.eqb_eq in Eb. subst b. exfalso. apply (Hb i Hi W0).
      + rewrite <- I3. rewrite (nsum_dec n (fun j => steps (p j) (Li j) m) (fun j => steps (pset p i k j) (Li j) (fun b => if b =? a then v else m b)) i);
          [lia|auto| |].
        * intros j Hj Hn. rewrite pset_other by auto. destruct (I1 j Hj) as (Wj & fj & Rj & Fj).
          eapply steps_agree; [|exact Rj]. exact (Ag j Hj Hn).
        * rewrite pset_same, E. reflexivity.
  Qed.

  Lemma Inv_steps : forall q s, psteps L n q (m0, prog) s -> Inv q s.
  Proof.
    intros q s H. remember (m0, prog) as s0 eqn:E0. induction H as [s|q s s' s'' H IH Hs].
    - subst s. apply Inv_init.
    - eapply Inv_step; eauto.
  Qed.

  Lemma Inv_good : forall q s, Inv q s ->
    ~ racing n s /\ ~ stuck L n s /\ (q <= nsum n (fun i => steps (prog i) (Li i) m0))%nat /\
    (finished n s -> (forall i a, (i < n)%nat -> Li i a = true -> fst s a = fin i a) /\
       (forall a, (forall i, (i < n)%nat -> ~ Wi i a) -> fst s a = m0 a)).
  Proof.
    intros q [m p] (I1 & I2 & I3). cbn [fst snd] in *. split; [|split; [|split]].
    - intros (i & j & a & v & k & Hi & Hj & Hn & E & H). cbn [snd] in *.
      destruct (I1 i Hi) as (W1 & _). rewrite E in W1. destruct W1 as (W0 & _).
      destruct (I1 j Hj) as (_ & f & R & _). pose proof (HD i j a Hi Hj Hn W0) as X.
      destruct H as [(k' & E')|(v' & k' & E')]; rewrite E' in R; cbn [run] in R; rewrite X in R; discriminate.
    - intros (i & Hi & H). cbn [snd] in H. destruct (I1 i Hi) as (_ & f & R & _). destruct (p i) as [x| |a k|a v k]; auto.
      + discriminate.
      + cbn [run] in R. destruct (Li i a) eqn:Ei; [|discriminate]. apply HL in Ei; auto. congruence.
      + cbn [run] in R. destruct (Li i a) eqn:Ei; [|discriminate]. apply HL in Ei; auto. congruence.
    - lia.
    - intros Hf. split; [|exact I2]. intros i a Hi Ha. destruct (I1 i Hi) as (_ & f & R & F).
      pose proof (Hf i Hi) as X. cbn [snd] in X. rewrite X in R. cbn [run] in R. injection R as <-. auto.
  Qed.
End Inter.
