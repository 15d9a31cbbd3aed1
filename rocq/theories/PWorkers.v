(* PWorkers.v: an invariant of the workers and the caller. *)
From Coq Require Import ZArith Bool List Arith Lia.
From Verif Require Import MWorkers PCounter.
Import ListNotations.
Local Open Scope Z_scope.

Lemma upd_same : forall A (f : nat -> A) i a, upd f i a i = a.
Proof. intros. unfold upd. rewrite Nat.eqb_refl. reflexivity. Qed.
Lemma upd_other : forall A (f : nat -> A) i j a, j <> i -> upd f i a j = f j.
Proof. intros. unfold upd. destruct (Nat.eqb_spec j i); congruence. Qed.
Lemma tsum_f : forall A (f : A -> Z) (p : nat -> A) i v n, (i < n)%nat ->
  tsum (fun j => f (upd p i v j)) n = tsum (fun j => f (p j)) n - f (p i) + f v.
Proof.
  intros A f p i v n Hi. rewrite <- (tsum_upd (fun j => f (p j)) i (f v) n Hi). apply tsum_ext. intros j _.
  unfold upd, PThread.supd. destruct (Nat.eqb j i); reflexivity.
Qed.
Lemma tsum_const0 : forall n, tsum (fun _ => 0) n = 0.
Proof. induction n; cbn [tsum]; lia. Qed.
Lemma tsum_ge : forall f n i, (forall i, 0 <= f i) -> (i < n)%nat -> f i <= tsum f n.
Proof.
  intros f n i H. induction n; intros Hi; [lia|]. cbn [tsum]. pose proof (tsum_nonneg f n H). pose proof (H n).
  destruct (Nat.eq_dec i n) as [->|]; [lia|]. specialize (IHn ltac:(lia)). lia.
Qed.
Lemma tsum_pos : forall f n, 0 < tsum f n -> exists i, (i < n)%nat /\ 0 < f i.
Proof.
  intros f. induction n; cbn [tsum]; intros H; [lia|]. destruct (Z_lt_dec 0 (f n)); [exists n; split; [lia|auto]|].
  destruct IHn as (i & ? & ?); [lia|]. exists i. split; [lia|auto].
Qed.

(* occurrences of a task in a queue *)
Fixpoint occ (t : nat) (l : list nat) : Z :=
  match l with [] => 0 | x :: l' => (if Nat.eqb x t then 1 else 0) + occ t l' end.
Lemma occ_nonneg : forall t l, 0 <= occ t l.
Proof. intros t. induction l; cbn [occ]; [lia|]. destruct (Nat.eqb a t); lia. Qed.
Lemma occ_app : forall t l l', occ t (l ++ l') = occ t l + occ t l'.
Proof. intros t. induction l; intros; cbn [app occ]; [lia|]. rewrite IHl. lia. Qed.
Lemma occ_pos : forall t l, 0 < occ t l -> l <> [].
Proof. intros t [|a l]; cbn [occ]; [lia|discriminate]. Qed.
(* executions of a task *)
Fixpoint ex (t : nat) (l : list (nat * nat)) : Z :=
  match l with [] => 0 | (_, x) :: l' => (if Nat.eqb x t then 1 else 0) + ex t l' end.
Lemma ex_nonneg : forall t l, 0 <= ex t l.
Proof. intros t. induction l as [|[a b] l IH]; cbn [ex]; [lia|]. destruct (Nat.eqb b t); lia. Qed.

Definition b1 (b : bool) : Z := if b then 1 else 0.
(* claimed and not yet executed *)
Definition hb (t : nat) (p : wpc) : Z :=
  match p with WDec x b => b1 (b && Nat.eqb x t) | WRun x => b1 (Nat.eqb x t) | _ => 0 end.
(* executed and not yet counted *)
Definition ha (t : nat) (p : wpc) : Z := match p with WCount x => b1 (Nat.eqb x t) | _ => 0 end.
(* still counted in wcnt *)
Definition tp (t : nat) (p : wpc) : Z :=
  match p with WClaim x => b1 (Nat.eqb x t) | WDec x _ => b1 (Nat.eqb x t) | _ => 0 end.
Definition hd (t : nat) (p : wpc) : Z := match p with WDec x b => b1 (b && Nat.eqb x t) | _ => 0 end.
Definition cl (v : Z) : Z := b1 (negb (v =? 0)).
Definition uns (m : mpc) : list nat := match m with MSched ts | MWrite _ _ ts => ts | _ => [] end.
Definition cur (m : mpc) : list nat := match m with MWrite t _ _ => [t] | _ => [] end.
Definition rem (m : mpc) (t : nat) : Z := match m with MWrite x qs _ => if Nat.eqb x t then Z.of_nat (length qs) else 0 | _ => 0 end.

Lemma b1_range : forall b, 0 <= b1 b <= 1. Proof. destruct b; cbn; lia. Qed.
Lemma hb_nn : forall t p, 0 <= hb t p. Proof. intros t []; cbn; try apply b1_range; lia. Qed.
Lemma ha_nn : forall t p, 0 <= ha t p. Proof. intros t []; cbn; try apply b1_range; lia. Qed.
Lemma tp_nn : forall t p, 0 <= tp t p. Proof. intros t []; cbn; try apply b1_range; lia. Qed.
Lemma hd_nn : forall t p, 0 <= hd t p. Proof. intros t []; cbn; try apply b1_range; lia. Qed.
Lemma hd_hb : forall t p, hd t p <= hb t p. Proof. intros t []; cbn; try lia. apply b1_range. Qed.
Lemma rem_nn : forall m t, 0 <= rem m t. Proof. intros [] x; cbn; try lia; destruct (Nat.eqb t x); lia. Qed.

Lemma tsum_minus1 : forall f n t, (t < n)%nat -> tsum (fun x => f x - b1 (Nat.eqb t x)) n = tsum f n - 1.
Proof.
  intros f n t Ht.
  transitivity (tsum (PThread.supd f t (f t - 1)) n).
  - apply tsum_ext. intros j _. unfold PThread.supd. rewrite Nat.eqb_sym. destruct (Nat.eqb_spec j t); subst; cbn [b1]; lia.
  - rewrite tsum_upd by assumption. lia.
Qed.

Section Inv.
  Variables (cap ntask nw : nat) (route : nat -> list nat) (early : bool).
  Hypothesis Hr : forall t, (t < ntask)%nat -> Forall (fun k => (k < nw)%nat) (route t).

  Definition pollok (s : wstate) : Prop :=
    match mp s with
    | MPoll k i r => (k < 50)%nat /\ (i <= ntask)%nat /\ 0 <= r /\ (early = false -> count s = 0) /\
                     (early = false -> (forall t, (t < ntask)%nat -> (length (route t) <= 1)%nat) -> r = 0) /\
                     (r = 0 -> forall t, (t < i)%nat -> wcnt s t = 0)
    | MFree => (early = false -> count s = 0) /\ forall t, (t < ntask)%nat -> wcnt s t = 0
    | MAbort => early = false -> ~ (forall t, (t < ntask)%nat -> (length (route t) <= 1)%nat)
    | MWrite _ qs _ => Forall (fun k => (k < nw)%nat) qs
    | _ => True
    end.

  Record WInv (s : wstate) : Prop := {
    iA : forall t, ex t (log s) + tsum (fun i => hb t (pc s i)) nw = cl (wid s t);
    iB : count s = tsum (fun t => 1 - ex t (log s) + tsum (fun i => ha t (pc s i)) nw) ntask;
    iC : forall t, wcnt s t = tsum (fun i => occ t (queue s i)) nw + tsum (fun i => tp t (pc s i)) nw + rem (mp s) t;
    iD : forall t, wcnt s t + cl (wid s t) - tsum (fun i => hd t (pc s i)) nw <= Z.of_nat (length (route t));
    iE : NoDup (cur (mp s) ++ uns (mp s)) /\ (forall t, In t (cur (mp s) ++ uns (mp s)) -> (t < ntask)%nat) /\
         (forall t, In t (uns (mp s)) -> wcnt s t = 0 /\ wid s t = 0);
    iF : forall t, (t < ntask)%nat -> ~ In t (uns (mp s)) -> wid s t = 0 -> wcnt s t = Z.of_nat (length (route t));
    iG : forall t, (ntask <= t)%nat -> wid s t = 0 /\ wcnt s t = 0;
    iH : forall t, tsum (fun i => ha t (pc s i)) nw <= ex t (log s);
    iI : forall i, (nw <= i)%nat -> pc s i = WRead /\ queue s i = [];
    iJ : pollok s;
    iK : forall i t b, pc s i = WDec t b -> wid s t <> 0 }.

  Lemma WInv_init : WInv (winit ntask).
  Proof.
    assert (Z0 : forall n (f : wpc -> Z), f WRead = 0 -> tsum (fun _ : nat => f WRead) n = 0).
    { intros n f E. rewrite <- (tsum_const0 n). apply tsum_ext. auto. }
    constructor; cbn [winit queue pc wid wcnt count mp log ex occ cur uns rem app].
    - intros t. rewrite Z0; reflexivity.
    - rewrite (tsum_ext _ (fun _ => 1)); [|intros; rewrite Z0; reflexivity]. clear. induction ntask; cbn [tsum]; lia.
    - intros t. rewrite Z0 by reflexivity. rewrite tsum_const0. reflexivity.
    - intros t. rewrite Z0 by reflexivity. unfold cl; cbn [b1 negb Z.eqb]. lia.
    - split; [apply seq_NoDup|]. split; [intros t Ht; apply in_seq in Ht; lia|auto].
    - intros t Ht Hn. exfalso. apply Hn, in_seq. lia.
    - auto.
    - intros t. rewrite Z0 by reflexivity. lia.
    - auto.
    - exact I.
    - discriminate.
  Qed.

  (* the counter is zero: everything is executed and nobody counts any more *)
  Lemma count_zero : forall l (p : nat -> wpc) w n,
    (forall t, ex t l + tsum (fun i => hb t (p i)) nw = cl (w t)) ->
    n = tsum (fun t => 1 - ex t l + tsum (fun i => ha t (p i)) nw) ntask -> n = 0 ->
    forall t, (t < ntask)%nat -> ex t l = 1 /\ cl (w t) = 1 /\ tsum (fun i => ha t (p i)) nw = 0 /\ tsum (fun i => hb t (p i)) nw = 0.
  Proof.
    intros l p w n A B N t Ht.
    assert (P : forall x, 0 <= tsum (fun i => ha x (p i)) nw) by (intros x; exact (tsum_nonneg (fun j => ha x (p j)) nw (fun j => ha_nn x (p j)))).
    assert (P' : forall x, 0 <= tsum (fun i => hb x (p i)) nw) by (intros x; exact (tsum_nonneg (fun j => hb x (p j)) nw (fun j => hb_nn x (p j)))).
    assert (Q : forall x, ex x l <= 1).
    { intros x. specialize (A x). specialize (P' x). unfold cl in A. pose proof (b1_range (negb (w x =? 0))). lia. }
    assert (Z0 : 1 - ex t l + tsum (fun i => ha t (p i)) nw = 0).
    { apply (tsum_zero (fun t => 1 - ex t l + tsum (fun i => ha t (p i)) nw) ntask); [|congruence|auto].
      intros x. specialize (P x). specialize (Q x). lia. }
    specialize (A t). specialize (P t). specialize (P' t). specialize (Q t). unfold cl in *.
    pose proof (b1_range (negb (w t =? 0))). lia.
  Qed.

  Ltac sums := repeat match goal with
    | |- context [tsum (fun j => ?f (upd ?p ?i ?v j)) nw] => rewrite (tsum_f _ f p i v nw) by assumption
    | |- context [tsum (fun j => ?f ?t (upd ?p ?i ?v j)) nw] => rewrite (tsum_f _ (f t) p i v nw) by assumption
    | H : context [tsum (fun j => ?f ?t (upd ?p ?i ?v j)) nw] |- _ => rewrite (tsum_f _ (f t) p i v nw) in H by assumption
    end.

  Lemma WInv_step : forall s s', WInv s -> wstep cap ntask route early s s' -> WInv s'.
  Proof.
    intros s s' I S.
    destruct S as [i q p w c n m l Hp|i q p w c n m l t r Hp Hq|i q p w c n m l t Hp|i q p w c n m l t b Hp|i q p w c n m l t Hp
      |i q p w c n m l t Hp|q p w c n l t ts|q p w c n l t k qs ts Hk|q p w c n l t ts|q p w c n l
      |q p w c n l Hn|q p w c n l k i r Hi|q p w c n l k r].
    all: destruct I as [A B C D E F G H I J K]; unfold pollok in J; cbn [queue pc wid wcnt count mp log] in *.
    all: try (assert (Hi : (i < nw)%nat) by (destruct (Nat.lt_ge_cases i nw) as [|Q]; [assumption|destruct (I i Q); congruence])).
    - constructor; cbn [queue pc wid wcnt count mp log]; auto.
      + intros x. sums. rewrite Hp. cbn [hb]. rewrite <- A. lia.
      + rewrite B. apply tsum_ext. intros x _. sums. rewrite Hp. cbn [ha]. lia.
      + intros x. sums. rewrite Hp. cbn [tp]. rewrite C. lia.
      + intros x. sums. rewrite Hp. cbn [hd]. specialize (D x). lia.
      + intros x. sums. rewrite Hp. cbn [ha]. specialize (H x). lia.
      + intros j Hj. rewrite upd_other by lia. auto.
      + intros j x b Hb. unfold upd in Hb. destruct (Nat.eqb_spec j i); [discriminate|]. eapply K; eauto.
    - constructor; cbn [queue pc wid wcnt count mp log]; auto.
      + intros x. sums. rewrite Hp. cbn [hb]. rewrite <- A. lia.
      + rewrite B. apply tsum_ext. intros x _. sums. rewrite Hp. cbn [ha]. lia.
      + intros x. sums. rewrite Hp, Hq. cbn [tp occ]. unfold b1. rewrite C. destruct (Nat.eqb t x); lia.
      + intros x. sums. rewrite Hp. cbn [hd]. specialize (D x). lia.
      + intros x. sums. rewrite Hp. cbn [ha]. specialize (H x). lia.
      + intros j Hj. rewrite !upd_other by lia. auto.
      + intros j x b Hb. unfold upd in Hb. destruct (Nat.eqb_spec j i); [discriminate|]. eapply K; eauto.
    - (* claim *)
      assert (Ct : 1 <= c t).
      { rewrite C. pose proof (tsum_ge (fun j => tp t (p j)) nw i (fun j => tp_nn t (p j)) Hi) as Q. cbn in Q. rewrite Hp in Q.
        cbn [tp] in Q. rewrite Nat.eqb_refl in Q. cbn [b1] in Q.
        pose proof (tsum_nonneg (fun j => occ t (q j)) nw (fun j => occ_nonneg t (q j))). pose proof (rem_nn m t). lia. }
      assert (Ht : (t < ntask)%nat) by (destruct (Nat.lt_ge_cases t ntask) as [|Q]; [assumption|destruct (G t Q); lia]).
      constructor; cbn [queue pc wid wcnt count mp log]; auto.
      + intros x. sums. rewrite Hp. cbn [hb]. specialize (A x). destruct (Z.eqb_spec (w t) 0) as [W|W]; cbn [andb b1].
        * destruct (Nat.eqb_spec t x) as [<-|N]; cbn [b1].
          -- rewrite upd_same. rewrite W in A. unfold cl in *. destruct (Z.eqb_spec (Z.of_nat i + 1) 0); cbn [negb b1 Z.eqb] in *; lia.
          -- rewrite upd_other by auto. lia.
        * lia.
      + rewrite B. apply tsum_ext. intros x _. sums. rewrite Hp. cbn [ha]. lia.
      + intros x. sums. rewrite Hp. cbn [tp]. rewrite C. lia.
      + intros x. sums. rewrite Hp. cbn [hd]. specialize (D x). destruct (Z.eqb_spec (w t) 0) as [W|W]; cbn [andb b1].
        * destruct (Nat.eqb_spec t x) as [<-|N]; cbn [b1].
          -- rewrite upd_same. rewrite W in D. unfold cl in *. destruct (Z.eqb_spec (Z.of_nat i + 1) 0); cbn [negb b1 Z.eqb] in *; lia.
          -- rewrite upd_other by auto. lia.
        * lia.
      + destruct E as (E1 & E2 & E3). split; [auto|split; [auto|]]. intros x Hx. destruct (E3 x Hx) as (X1 & X2).
        destruct (Nat.eq_dec t x) as [<-|N]; [lia|]. split; [auto|]. destruct (w t =? 0); [rewrite upd_other by auto|]; auto.
      + intros x Hx Hu Hw. apply F; auto. destruct (w t =? 0); [|auto]. unfold upd in Hw.
        destruct (Nat.eqb_spec x t); [lia|auto].
      + intros x Hx. destruct (G x Hx). split; [|auto]. destruct (w t =? 0); [rewrite upd_other by lia|]; auto.
      + intros x. sums. rewrite Hp. cbn [ha]. specialize (H x). lia.
      + intros j Hj. rewrite !upd_other by lia. auto.
      + intros j x b Hb. unfold upd at 1 in Hb. destruct (Nat.eqb_spec j i) as [->|N].
        * injection Hb as <- _. destruct (Z.eqb_spec (w t) 0); [rewrite upd_same; lia|auto].
        * specialize (K j x b Hb). destruct (w t =? 0); [|auto]. unfold upd. destruct (Nat.eqb x t); lia.
    - (* dec *)
      assert (Ct : 1 <= c t).
      { rewrite C. pose proof (tsum_ge (fun j => tp t (p j)) nw i (fun j => tp_nn t (p j)) Hi) as Q. cbn in Q. rewrite Hp in Q.
        cbn [tp] in Q. rewrite Nat.eqb_refl in Q. cbn [b1] in Q.
        pose proof (tsum_nonneg (fun j => occ t (q j)) nw (fun j => occ_nonneg t (q j))). pose proof (rem_nn m t). lia. }
      assert (Ht : (t < ntask)%nat) by (destruct (Nat.lt_ge_cases t ntask) as [|Q]; [assumption|destruct (G t Q); lia]).
      pose proof (K i t b Hp) as Wt.
      constructor; cbn [queue pc wid wcnt count mp log]; auto.
      + intros x. sums. rewrite Hp. specialize (A x). destruct b; cbn [hb andb b1]; lia.
      + rewrite B. apply tsum_ext. intros x _. sums. rewrite Hp. destruct b; cbn [ha]; lia.
      + intros x. sums. rewrite Hp. specialize (C x). unfold upd. rewrite (Nat.eqb_sym x t). cbn [tp].
        destruct (Nat.eqb_spec t x) as [<-|N]; destruct b; cbn [tp b1]; lia.
      + intros x. sums. rewrite Hp. specialize (D x). unfold upd. rewrite (Nat.eqb_sym x t). cbn [hd].
        destruct (Nat.eqb_spec t x) as [<-|N]; destruct b; cbn [hd b1 andb]; lia.
      + destruct E as (E1 & E2 & E3). split; [auto|split; [auto|]]. intros x Hx. destruct (E3 x Hx) as (X1 & X2).
        destruct (Nat.eq_dec t x) as [<-|N]; [lia|]. rewrite upd_other by auto. auto.
      + intros x Hx Hu Hw. destruct (Nat.eq_dec t x) as [<-|N]; [contradiction|]. rewrite upd_other by auto. auto.
      + intros x Hx. destruct (G x Hx). rewrite upd_other by lia. auto.
      + intros x. sums. rewrite Hp. specialize (H x). destruct b; cbn [ha]; lia.
      + intros j Hj. rewrite !upd_other by lia. auto.
      + unfold pollok in *. cbn [queue pc wid wcnt count mp log]. destruct m; auto.
        * destruct J as (J1 & J2 & J3 & J4 & J5 & J6). repeat (split; [assumption|]). intros Q x Hx. specialize (J6 Q x Hx).
          rewrite upd_other; [auto|]. intros ->. lia.
        * destruct J as (J1 & J2). split; [auto|]. intros x Hx. specialize (J2 x Hx). rewrite upd_other; [auto|]. intros ->. lia.
      + intros j x b' Hb. unfold upd in Hb. destruct (Nat.eqb_spec j i); [destruct b; discriminate|]. eapply K; eauto.
    - (* run *)
      constructor; cbn [queue pc wid wcnt count mp log]; auto.
      + intros x. sums. rewrite Hp. specialize (A x). cbn [hb ex]. unfold b1. destruct (Nat.eqb t x); lia.
      + rewrite B. apply tsum_ext. intros x _. sums. rewrite Hp. cbn [ha ex]. unfold b1. destruct (Nat.eqb t x); lia.
      + intros x. sums. rewrite Hp. cbn [tp]. rewrite C. lia.
      + intros x. sums. rewrite Hp. cbn [hd]. specialize (D x). lia.
      + intros x. sums. rewrite Hp. cbn [ha ex]. specialize (H x). unfold b1. destruct (Nat.eqb t x); lia.
      + intros j Hj. rewrite !upd_other by lia. auto.
      + intros j x b Hb. unfold upd in Hb. destruct (Nat.eqb_spec j i); [discriminate|]. eapply K; eauto.
    - (* count *)
      assert (Hx : 1 <= ex t l).
      { pose proof (tsum_ge (fun j => ha t (p j)) nw i (fun j => ha_nn t (p j)) Hi) as Q. cbn in Q. rewrite Hp in Q.
        cbn [ha] in Q. rewrite Nat.eqb_refl in Q. cbn [b1] in Q. specialize (H t). lia. }
      assert (Ht : (t < ntask)%nat).
      { destruct (Nat.lt_ge_cases t ntask) as [|Q]; [assumption|]. destruct (G t Q) as (W & _). specialize (A t). rewrite W in A.
        pose proof (tsum_nonneg (fun j => hb t (p j)) nw (fun j => hb_nn t (p j))). unfold cl in A. cbn [Z.eqb negb b1] in A. lia. }
      constructor; cbn [queue pc wid wcnt count mp log]; auto.
      + intros x. sums. rewrite Hp. specialize (A x). cbn [hb]. lia.
      + rewrite (tsum_ext _ (fun x => 1 - ex x l + tsum (fun j => ha x (p j)) nw - b1 (Nat.eqb t x))).
        * rewrite tsum_minus1 by assumption. lia.
        * intros x _. sums. rewrite Hp. cbn [ha]. lia.
      + intros x. sums. rewrite Hp. cbn [tp]. rewrite C. lia.
      + intros x. sums. rewrite Hp. cbn [hd]. specialize (D x). lia.
      + intros x. sums. rewrite Hp. cbn [ha]. specialize (H x). unfold b1. destruct (Nat.eqb t x); lia.
      + intros j Hj. rewrite !upd_other by lia. auto.
      + unfold pollok in *. cbn [queue pc wid wcnt count mp log]. destruct m; auto.
        * destruct J as (J1 & J2 & J3 & J4 & J5 & J6). repeat (split; [assumption|]). split; [|split; assumption].
          intros Q. specialize (J4 Q). exfalso. destruct (count_zero l p w n A B J4 t Ht) as (_ & _ & Q1 & _).
          pose proof (tsum_ge (fun j => ha t (p j)) nw i (fun j => ha_nn t (p j)) Hi) as Q2. cbn in Q2. rewrite Hp in Q2.
          cbn [ha] in Q2. rewrite Nat.eqb_refl in Q2. cbn [b1] in Q2. lia.
        * destruct J as (J1 & J2). split; [|assumption].
          intros Q. specialize (J1 Q). exfalso. destruct (count_zero l p w n A B J1 t Ht) as (_ & _ & Q1 & _).
          pose proof (tsum_ge (fun j => ha t (p j)) nw i (fun j => ha_nn t (p j)) Hi) as Q2. cbn in Q2. rewrite Hp in Q2.
          cbn [ha] in Q2. rewrite Nat.eqb_refl in Q2. cbn [b1] in Q2. lia.
      + intros j x b Hb. unfold upd in Hb. destruct (Nat.eqb_spec j i); [discriminate|]. eapply K; eauto.
    - (* schedule *)
      destruct E as (E1 & E2 & E3). cbn [cur uns app] in *. destruct (E3 t (or_introl eq_refl)) as (X1 & X2).
      inversion E1 as [|? ? Nt E1']; subst.
      assert (W : forall x, upd w t 0 x = w x) by (intros x; unfold upd; destruct (Nat.eqb_spec x t); subst; auto).
      constructor; cbn [queue pc wid wcnt count mp log cur uns app rem]; auto.
      + intros x. rewrite W. auto.
      + intros x. unfold upd. specialize (C x). cbn [rem] in C. rewrite (Nat.eqb_sym x t). destruct (Nat.eqb_spec t x); subst; lia.
      + intros x. rewrite W. unfold upd. specialize (D x). destruct (Nat.eqb_spec x t); subst; [|lia].
        rewrite X2. pose proof (tsum_nonneg (fun j => hd t (p j)) nw (fun j => hd_nn t (p j))). unfold cl. cbn [Z.eqb negb b1]. lia.
      + split; [auto|]. split; [auto|]. intros x Hx. rewrite W. rewrite upd_other; [apply E3; right; auto|]. intros ->. auto.
      + intros x Hx Hu. rewrite W. unfold upd. destruct (Nat.eqb_spec x t); subst; [auto|]. intros Hw. apply F; auto.
        intros [Q|Q]; auto.
      + intros x Hx. rewrite W. rewrite upd_other; [auto|]. specialize (E2 t (or_introl eq_refl)). lia.
      + apply Hr, E2. left; auto.
      + intros j x b Hb. rewrite W. eapply K; eauto.
    - (* write *)
      apply Forall_cons_iff in J. destruct J as (Jk & J).
      constructor; cbn [queue pc wid wcnt count mp log cur uns app rem] in *; auto.
      + intros x. rewrite (tsum_f _ (occ x)) by assumption. rewrite occ_app. cbn [occ]. specialize (C x). cbn [length] in C.
        destruct (Nat.eqb t x); lia.
      + intros j Hj. rewrite upd_other by lia. auto.
    - (* written *)
      destruct E as (E1 & E2 & E3). constructor; cbn [queue pc wid wcnt count mp log cur uns app rem] in *; auto.
      + intros x. specialize (C x). cbn [length] in C. destruct (Nat.eqb t x); lia.
      + inversion E1; subst. split; [assumption|split; [|assumption]]. intros x Hx. apply E2. right; auto.
      + exact Logic.I.
    - constructor; cbn [queue pc wid wcnt count mp log cur uns app rem] in *; auto.
    - (* wait *)
      constructor; cbn [queue pc wid wcnt count mp log cur uns app rem] in *; auto. cbn. repeat (split; [lia|]).
      split; [intros Q; destruct Hn; congruence|]. split; [auto|]. intros; lia.
    - (* poll *)
      destruct J as (J1 & J2 & J3 & J4 & J5 & J6).
      assert (Cn : 0 <= c i).
      { rewrite C. pose proof (tsum_nonneg (fun j => occ i (q j)) nw (fun j => occ_nonneg i (q j))).
        pose proof (tsum_nonneg (fun j => tp i (p j)) nw (fun j => tp_nn i (p j))). cbn [rem]. lia. }
      constructor; cbn [queue pc wid wcnt count mp log cur uns app rem] in *; auto.
      cbn. split; [auto|]. split; [lia|]. split; [lia|]. split; [auto|]. split.
      + intros Q L. rewrite (J5 Q L). specialize (J4 Q). destruct (count_zero l p w n A B J4 i Hi) as (_ & Q1 & _ & Q2).
        specialize (D i). specialize (L i Hi). rewrite Q1 in D.
        pose proof (tsum_le (fun j => hd i (p j)) (fun j => hb i (p j)) nw (fun j => hd_hb i (p j))). cbn in *. lia.
      + intros Q x Hx. destruct (Nat.eq_dec x i) as [->|N]; [lia|]. apply J6; lia.
    - (* round *)
      destruct J as (J1 & J2 & J3 & J4 & J5 & J6).
      destruct (Z.eqb_spec r 0) as [R|R]; [|destruct (Nat.ltb_spec (S k) 50) as [Q|Q]];
        (constructor; cbn [queue pc wid wcnt count mp log cur uns app rem] in *; auto; unfold pollok; cbn [queue pc wid wcnt count mp log]).
      + auto.
      + split; [auto|]. split; [lia|]. split; [lia|]. split; [auto|]. split; [auto|]. intros; lia.
      + intros Q1 L. auto.
  Qed.
  Lemma WInv_all : forall k s, wsteps cap ntask route early k s -> WInv s.
  Proof. induction 1; [apply WInv_init|eapply WInv_step; eauto]. Qed.

  (* tasks go only where they were sent *)
  Definition holds (t : nat) (p : wpc) : Prop :=
    match p with WClaim x | WDec x _ | WRun x | WCount x => x = t | _ => False end.
  Definition sent (s : wstate) : Prop :=
    (forall i t, In t (queue s i) -> In i (route t)) /\ (forall i t, holds t (pc s i) -> In i (route t)) /\
    (forall i t, In (i, t) (log s) -> In i (route t)) /\
    match mp s with MWrite t qs _ => forall k, In k qs -> In k (route t) | _ => True end.
  Lemma sent_step : forall s s', sent s -> wstep cap ntask route early s s' -> sent s'.
  Proof.
    intros s s' (Q & P & L & M) S. unfold sent.
    destruct S as [i q p w c n m l Hp|i q p w c n m l t r Hp Hq|i q p w c n m l t Hp|i q p w c n m l t b Hp|i q p w c n m l t Hp
      |i q p w c n m l t Hp|q p w c n l t ts|q p w c n l t k qs ts Hk|q p w c n l t ts|q p w c n l
      |q p w c n l Hn|q p w c n l k i r Hi|q p w c n l k r]; cbn [queue pc wid wcnt count mp log] in *; try (split; [|split; [|split]]); auto.
    all: try (intros j x; unfold upd; destruct (Nat.eqb_spec j i) as [->|]; cbn [holds]; intros Hx; try tauto; eauto; fail).
    - intros j x. unfold upd. destruct (Nat.eqb_spec j i) as [->|]; intros Hx; apply Q; [rewrite Hq; right|]; auto.
    - intros j x. unfold upd. destruct (Nat.eqb_spec j i) as [->|]; cbn [holds]; [intros <-; apply Q; rewrite Hq; left; auto|apply P].
    - intros j x. unfold upd. destruct (Nat.eqb_spec j i) as [->|]; [|apply P]. cbn [holds]. intros <-. apply P. rewrite Hp. reflexivity.
    - intros j x. unfold upd. destruct (Nat.eqb_spec j i) as [->|]; [|apply P]. destruct b; cbn [holds]; [|tauto]. intros <-.
      apply P. rewrite Hp. reflexivity.
    - intros j x. unfold upd. destruct (Nat.eqb_spec j i) as [->|]; [|apply P]. cbn [holds]. intros <-. apply P. rewrite Hp. reflexivity.
    - intros j x [E|Hx]; [|auto]. injection E as <- <-. apply P. rewrite Hp. reflexivity.
    - intros j x. unfold upd. destruct (Nat.eqb_spec j k) as [->|]; [|apply Q]. rewrite in_app_iff. intros [Hx|[<-|[]]]; [auto|].
      apply M. left; auto.
    - intros j Hj. apply M. right; auto.
    - destruct (r =? 0); [exact Logic.I|]. destruct (Nat.ltb (S k) 50); exact Logic.I.
  Qed.
  Lemma sent_all : forall k s, wsteps cap ntask route early k s -> sent s.
  Proof.
    induction 1; [|eapply sent_step; eauto]. unfold sent, winit. cbn [queue pc wid wcnt count mp log holds In].
    repeat split; intros; try contradiction.
  Qed.

  (* every step costs *)
  Definition pw (p : wpc) : Z := match p with WTop => 1 | WRead => 0 | WClaim _ => 5 | WDec _ _ => 4 | WRun _ => 3 | WCount _ => 2 end.
  Definition lw (q : list nat) : Z := 6 * Z.of_nat (length q).
  Fixpoint sw (ts : list nat) : Z := match ts with [] => 0 | t :: ts' => 2 + 7 * Z.of_nat (length (route t)) + sw ts' end.
  Definition poll0 : Z := 50 * (Z.of_nat ntask + 1).
  Definition mw (m : mpc) : Z :=
    match m with
    | MSched ts => sw ts + poll0 + 2
    | MWrite _ qs ts => 1 + 7 * Z.of_nat (length qs) + sw ts + poll0 + 2
    | MWait => poll0 + 1
    | MPoll k i _ => (50 - Z.of_nat k) * (Z.of_nat ntask + 1) - Z.of_nat i
    | _ => 0 end.
  Definition cost (s : wstate) : Z := tsum (fun i => lw (queue s i)) nw + tsum (fun i => pw (pc s i)) nw + mw (mp s).
  Lemma sw_nn : forall ts, 0 <= sw ts.
  Proof. induction ts; cbn [sw]; lia. Qed.
  Lemma cost_nn : forall s, WInv s -> 0 <= cost s.
  Proof.
    intros s I. unfold cost.
    pose proof (tsum_nonneg (fun i => lw (queue s i)) nw) as P1. pose proof (tsum_nonneg (fun i => pw (pc s i)) nw) as P2.
    cbn beta in *. specialize (P1 ltac:(intros; unfold lw; lia)). specialize (P2 ltac:(intros i; destruct (pc s i); cbn; lia)).
    assert (0 <= mw (mp s)); [|lia]. destruct I as [_ _ _ _ _ _ _ _ _ J _]. unfold pollok in J. unfold mw, poll0.
    destruct (mp s); try pose proof (sw_nn ts); try nia.
  Qed.
  Lemma cost_step : forall s s', WInv s -> wstep cap ntask route early s s' -> cost s' <= cost s - 1.
  Proof.
    intros s s' W S. pose proof (WInv_step _ _ W S) as W'. unfold cost.
    destruct S as [i q p w c n m l Hp|i q p w c n m l t r Hp Hq|i q p w c n m l t Hp|i q p w c n m l t b Hp|i q p w c n m l t Hp
      |i q p w c n m l t Hp|q p w c n l t ts|q p w c n l t k qs ts Hk|q p w c n l t ts|q p w c n l
      |q p w c n l Hn|q p w c n l k i r Hi|q p w c n l k r].
    all: destruct W as [A B C D E F G H I J K]; unfold pollok in J; cbn [queue pc wid wcnt count mp log] in *.
    all: try (assert (Hi : (i < nw)%nat) by (destruct (Nat.lt_ge_cases i nw) as [|Q]; [assumption|destruct (I i Q); congruence])).
    all: try (rewrite (tsum_f _ pw p i _ nw Hi), Hp; cbn [pw]).
    - lia.
    - rewrite (tsum_f _ lw q i r nw Hi), Hq. unfold lw. cbn [length]. lia.
    - lia.
    - destruct b; cbn [pw]; lia.
    - lia.
    - lia.
    - cbn [mw sw]. lia.
    - apply Forall_cons_iff in J. destruct J as (Jk & _). rewrite (tsum_f _ lw q k _ nw Jk). unfold lw. rewrite app_length. cbn [mw length]. lia.
    - cbn [mw length]. lia.
    - cbn [mw sw]. lia.
    - cbn [mw]. unfold poll0. lia.
    - cbn [mw]. lia.
    - destruct J as (J1 & _). destruct (r =? 0); [cbn [mw]; nia|]. destruct (Nat.ltb_spec (S k) 50); cbn [mw]; nia.
  Qed.
  Lemma cost_all : forall k s, wsteps cap ntask route early k s -> Z.of_nat k + cost s <= sw (seq 0 ntask) + poll0 + 2.
  Proof.
    induction 1 as [|k s s' R IH S].
    - unfold cost, winit. cbn [queue pc mp mw].
      rewrite (tsum_ext (fun _ => lw []) (fun _ => 0)) by (intros; reflexivity).
      rewrite tsum_const0. change (fun _ : nat => pw WRead) with (fun _ : nat => 0). rewrite tsum_const0. lia.
    - pose proof (cost_step s s' (WInv_all _ _ R) S). lia.
  Qed.

  (* a worker with something to do can do it *)
  Lemma worker_moves : forall s i, pc s i <> WRead \/ queue s i <> [] -> exists s', wstep cap ntask route early s s'.
  Proof.
    intros [q p w c n m l] i H. cbn [pc queue] in H. destruct (p i) as [| |t|t b|t|t] eqn:E.
    - eexists. eapply s_top; eauto.
    - destruct (q i) as [|t r] eqn:Q; [destruct H; congruence|]. eexists. eapply s_read; eauto.
    - eexists. eapply s_claim; eauto.
    - eexists. eapply s_dec; eauto.
    - eexists. eapply s_run; eauto.
    - eexists. eapply s_count; eauto.
  Qed.
  Lemma moves : (1 <= cap)%nat -> (forall t, (t < ntask)%nat -> route t <> []) -> forall s, WInv s ->
    (exists s', wstep cap ntask route early s s') \/
    match mp s with MFree | MAbort => True | _ => False end.
  Proof.
    intros Hcap Hne s W. destruct (mp s) as [ts|t qs ts| |k i r| |] eqn:M; auto; left; pose proof W as W'; destruct W as [A B C D E F G H I J K];
      unfold pollok in J; rewrite M in *.
    - destruct s as [q p w c n m l]; cbn [mp] in M; subst m. destruct ts; eexists; [apply s_all|apply s_sched].
    - destruct s as [q p w c n m l]; cbn [mp] in M; subst m. destruct qs as [|k qs]; [eexists; apply s_written|].
      destruct (Nat.lt_ge_cases (length (q k)) cap) as [Q|Q]; [eexists; apply s_write; auto|].
      apply (worker_moves _ k). right. cbn [queue]. intros E0. rewrite E0 in Q. cbn [length] in Q. lia.
    - destruct (Z.eq_dec (count s) 0) as [N|N].
      + destruct s as [q p w c n m l]; cbn [mp count] in *; subst m. eexists. apply s_wait. auto.
      + assert (P : forall x, 0 <= tsum (fun i => ha x (pc s i)) nw) by (intros x; exact (tsum_nonneg (fun j => ha x (pc s j)) nw (fun j => ha_nn x (pc s j)))).
        assert (Q : forall x, ex x (log s) <= 1).
        { intros x. specialize (A x). pose proof (tsum_nonneg (fun j => hb x (pc s j)) nw (fun j => hb_nn x (pc s j))) as U. cbn in U.
          unfold cl in A. pose proof (b1_range (negb (wid s x =? 0))). lia. }
        assert (Hp : 0 < count s).
        { assert (0 <= count s); [|lia]. rewrite B. apply tsum_nonneg. intros x. specialize (P x). specialize (Q x). lia. }
        rewrite B in Hp. apply tsum_pos in Hp. destruct Hp as (t & Ht & Hp).
        assert (Cases : (exists i, (i < nw)%nat /\ (0 < ha t (pc s i) \/ 0 < hb t (pc s i) \/ 0 < tp t (pc s i) \/ 0 < occ t (queue s i)))).
        { destruct (Z_lt_dec 0 (tsum (fun i => ha t (pc s i)) nw)) as [Q1|Q1].
          { apply tsum_pos in Q1. destruct Q1 as (i & ? & ?). exists i. auto. }
          specialize (A t). specialize (P t). assert (X0 : ex t (log s) = 0) by (pose proof (ex_nonneg t (log s)); lia).
          unfold cl in A. destruct (Z.eqb_spec (wid s t) 0) as [W0|W0]; cbn [negb b1] in A.
          - assert (Ct : wcnt s t = Z.of_nat (length (route t))) by (apply F; auto).
            specialize (Hne t Ht). specialize (C t). cbn [rem] in C.
            assert (Q2 : 0 < tsum (fun i => occ t (queue s i)) nw \/ 0 < tsum (fun i => tp t (pc s i)) nw).
            { destruct (route t); [congruence|]. cbn [length] in Ct. lia. }
            destruct Q2 as [Q2|Q2]; apply tsum_pos in Q2; destruct Q2 as (i & ? & ?); exists i; auto.
          - assert (Q2 : 0 < tsum (fun i => hb t (pc s i)) nw) by lia. apply tsum_pos in Q2. destruct Q2 as (i & ? & ?). exists i. auto. }
        destruct Cases as (i & Hi & Ci). apply (worker_moves s i).
        destruct Ci as [Ci|[Ci|[Ci|Ci]]]; [left|left|left|right].
        1-3: intros E0; rewrite E0 in Ci; cbn in Ci; lia.
        apply occ_pos in Ci. auto.
    - destruct J as (_ & J & _). destruct s as [q p w c n m l]; cbn [mp count] in *; subst m.
      destruct (Nat.eq_dec i ntask) as [->|N]; [eexists; apply s_round|]. eexists. apply s_poll. lia.
  Qed.
End Inv.
