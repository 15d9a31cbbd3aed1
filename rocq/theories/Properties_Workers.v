(* Properties_Workers.v: C32 (every task is executed exactly once) and C62 (tasks are not used after
   they are released). *)
From Coq Require Import ZArith Bool List Arith Lia.
From Verif Require Import MWorkers PCounter PWorkers.
Import ListNotations.
Local Open Scope Z_scope.

(* how often task t was executed *)
Definition times (t : nat) (s : wstate) : nat := count_occ Nat.eq_dec (map snd (log s)) t.
(* the caller has been told that all tasks are done *)
Definition told (s : wstate) : Prop := match mp s with MPoll _ _ _ | MFree | MAbort => True | _ => False end.
(* worker i works on task t: it still uses the memory of the task *)
Definition uses (s : wstate) (i t : nat) : Prop :=
  In t (queue s i) \/ match pc s i with WClaim x | WDec x _ | WRun x | WCount x => x = t | _ => False end.

Lemma times_ex : forall t s, Z.of_nat (times t s) = ex t (log s).
Proof.
  intros t s. unfold times. induction (log s) as [|[w x] l IH]; [reflexivity|]. cbn [map snd count_occ ex]. rewrite <- IH.
  destruct (Nat.eq_dec x t) as [->|N]; [rewrite Nat.eqb_refl; lia|]. destruct (Nat.eqb_spec x t); [contradiction|lia].
Qed.
Lemma occ_count : forall t l, occ t l = Z.of_nat (count_occ Nat.eq_dec l t).
Proof.
  intros t. induction l as [|x l IH]; [reflexivity|]. cbn [occ count_occ]. rewrite IH.
  destruct (Nat.eq_dec x t) as [->|N]; [rewrite Nat.eqb_refl; lia|]. destruct (Nat.eqb_spec x t); [contradiction|lia].
Qed.

(* the queues chosen for a task: existing ones, one or two different ones, two exactly when asked for *)
Theorem C32_targets : forall o nworker rr rnd l rr', 1 <= nworker -> 0 <= rr < nworker ->
  targets o nworker rr rnd = Some (l, rr') ->
  Forall (fun k => 0 <= k < nworker) l /\ NoDup l /\ 0 <= rr' < nworker /\
  length l = (if two o && (1 <? nworker)%Z then 2 else 1)%nat.
Proof.
  assert (NN : forall a b : Z, a <> b -> NoDup [a; b]).
  { intros a b H. constructor; [intros [E|[]]; auto|constructor; [intros []|constructor]]. }
  assert (N1 : forall a : Z, NoDup [a]) by (intros a; constructor; [intros []|constructor]).
  assert (O : forall k n rnd j, 0 < n -> other k n rnd = Some j -> 0 <= j < n /\ k <> j).
  { intros k n rnd j Hn. induction rnd as [|x rnd IH]; cbn [other]; [discriminate|].
    destruct (Z.eqb_spec (x mod n) k) as [E|E]; [auto|]. injection 1 as <-. split; [apply Z.mod_pos_bound; lia|auto]. }
  intros o n rr rnd l rr' Hn Hr. unfold targets. destruct (Z.eqb_spec n 1) as [->|N].
  { injection 1 as <- <-. rewrite andb_comm. cbn [Z.ltb Z.compare andb]. split; [constructor; [lia|constructor]|auto]. }
  assert (L : (1 <? n) = true) by (apply Z.ltb_lt; lia). rewrite L, andb_true_r.
  destruct (two o).
  - destruct (Z.eqb_spec n 2) as [->|N2].
    { injection 1 as <- <-. split; [repeat constructor; lia|]. split; [apply NN; lia|auto]. }
    destruct (roundrobin o).
    + injection 1 as <- <-. pose proof (Z.mod_pos_bound (rr + 1) n ltac:(lia)) as B.
      pose proof (Z.mod_pos_bound ((rr + 1) mod n + 1) n ltac:(lia)). split; [repeat constructor; lia|]. split; [|auto].
      apply NN. destruct (Z.eq_dec (rr + 1) n) as [E|E]; [rewrite E, Z.mod_same by lia; lia|]. rewrite Z.mod_small by lia. lia.
    + destruct rnd as [|x rnd]; [discriminate|]. destruct (other (x mod n) n rnd) as [j|] eqn:E; [|discriminate].
      injection 1 as <- <-. apply O in E; [|lia]. pose proof (Z.mod_pos_bound x n ltac:(lia)).
      split; [repeat constructor; lia|]. split; [apply NN; tauto|auto].
  - destruct (roundrobin o).
    + injection 1 as <- <-. pose proof (Z.mod_pos_bound (rr + 1) n ltac:(lia)) as B.
      split; [repeat constructor; lia|]. auto.
    + destruct rnd as [|x rnd]; [discriminate|]. injection 1 as <- <-. pose proof (Z.mod_pos_bound x n ltac:(lia)).
      split; [repeat constructor; lia|]. auto.
Qed.
Print Assumptions C32_targets.

Section Any.
  Variables (cap ntask nw : nat) (route : nat -> list nat).
  Hypothesis Hr : forall t, (t < ntask)%nat -> Forall (fun k => (k < nw)%nat) (route t).

  (* At every moment, whatever the queues' capacities and even with spurious wake-ups of the caller:
     a task has been executed at most once, by a worker it was offered to. *)
  Theorem C32_at_most_once : forall early k s t, wsteps cap ntask route early k s ->
    (times t s <= 1)%nat /\ (forall i, In (i, t) (log s) -> In i (route t)).
  Proof.
    intros early k s t H. split; [|intros i; apply (sent_all _ _ _ _ _ _ H)].
    pose proof (WInv_all _ _ _ _ _ Hr _ _ H) as W. destruct W as [A _ _ _ _ _ _ _ _ _ _]. specialize (A t).
    rewrite <- times_ex in A. pose proof (tsum_nonneg (fun j => hb t (pc s j)) nw (fun j => hb_nn t (pc s j))) as U. cbn in U.
    unfold cl in A. pose proof (b1_range (negb (wid s t =? 0))). lia.
  Qed.

  (* When the caller is told that all tasks are done, each was executed exactly once. *)
  Theorem C32_all_done_partial : forall k s, wsteps cap ntask route false k s -> told s ->
    forall t, (t < ntask)%nat -> times t s = 1%nat.
  Proof.
    intros k s H Ht t Hn. pose proof (WInv_all _ _ _ _ _ Hr _ _ H) as W.
    assert (N : told s -> (exists k0 i r, mp s = MPoll k0 i r) \/ mp s = MFree \/ mp s = MAbort -> count s = 0 \/ mp s = MAbort).
    { destruct W as [A B _ _ _ _ _ _ _ J _]. unfold pollok in J. intros _ [(k0 & i & r & E)|[E|E]]; rewrite E in J; [left; tauto|left; tauto|right; auto]. }
    assert (C : count s = 0).
    { clear N. induction H as [|k s s' H IH S]; [contradiction|].
      pose proof (WInv_all _ _ _ _ _ Hr _ _ H) as W0.
      destruct W as [_ _ _ _ _ _ _ _ _ J _]. unfold pollok in J. unfold told in Ht.
      destruct (mp s') eqn:M; try contradiction; [tauto|tauto|].
      assert (Hs : mp s = MAbort \/ count s = count s' /\ exists k0 i r, mp s = MPoll k0 i r).
      { destruct S; cbn [mp count] in *; auto; try discriminate. right. split; [auto|]. eauto. }
      assert (Hc : told s -> count s = 0) by (intros T; apply IH; auto).
      destruct Hs as [E|(E & k0 & i & r & E')].
      - assert (C0 : count s = 0) by (apply Hc; unfold told; rewrite E; exact I).
        destruct W0 as [A B C D E0 F G H0 I0 J0 K0].
        destruct S; cbn [mp count] in *; try discriminate; auto. exfalso.
        (* a worker cannot count below zero *)
        assert (Hi : (i < nw)%nat) by (destruct (Nat.lt_ge_cases i nw) as [|Q]; [assumption|destruct (I0 i Q); cbn [pc] in *; congruence]).
        cbn [pc log wid] in *.
        assert (Q1 : 1 <= tsum (fun j => ha t0 (p j)) nw).
        { pose proof (tsum_ge (fun j => ha t0 (p j)) nw i (fun j => ha_nn t0 (p j)) Hi) as Q. cbn in Q. rewrite H1 in Q.
          cbn [ha] in Q. rewrite Nat.eqb_refl in Q. exact Q. }
        assert (Ht0 : (t0 < ntask)%nat).
        { destruct (Nat.lt_ge_cases t0 ntask) as [|Q]; [assumption|]. destruct (G t0 Q) as (W & _). specialize (A t0). specialize (H0 t0).
          cbn [wid] in W. rewrite W in A. pose proof (tsum_nonneg (fun j => hb t0 (p j)) nw (fun j => hb_nn t0 (p j))). unfold cl in A. cbn [Z.eqb negb b1] in A. lia. }
        destruct (count_zero ntask nw l p w n A B C0 t0 Ht0) as (_ & _ & Q & _). lia.
      - rewrite <- E. destruct W0 as [_ _ _ _ _ _ _ _ _ J0 _]. unfold pollok in J0. rewrite E' in J0. tauto. }
    destruct W as [A B _ _ _ _ _ _ _ _ _].
    destruct (count_zero ntask nw (log s) (pc s) (wid s) (count s) A B C t Hn) as (X & _). rewrite <- times_ex in X. lia.
  Qed.

  (* The call makes progress: somebody can take a step until the caller is through. *)
  Theorem C32_progress : forall early k s, wsteps cap ntask route early k s ->
    (1 <= cap)%nat -> (forall t, (t < ntask)%nat -> route t <> []) ->
    (exists s', wstep cap ntask route early s s') \/ mp s = MFree \/ mp s = MAbort.
  Proof.
    intros early k s H Hc Hne. destruct (moves cap ntask nw route early Hc Hne s (WInv_all _ _ _ _ _ Hr _ _ H)) as [M|M]; [auto|].
    right. destruct (mp s); try contradiction; auto.
  Qed.

  (* The number of steps is bounded. *)
  Theorem C32_ends : forall early k s, wsteps cap ntask route early k s ->
    Z.of_nat k <= 2 * Z.of_nat ntask + 7 * Z.of_nat (length (flat_map route (seq 0 ntask))) + 50 * (Z.of_nat ntask + 1) + 2.
  Proof.
    intros early k s H. pose proof (cost_all _ _ _ _ _ Hr _ _ H) as Q. pose proof (cost_nn _ _ _ _ s (WInv_all _ _ _ _ _ Hr _ _ H)).
    assert (E : forall l, sw route l = 2 * Z.of_nat (length l) + 7 * Z.of_nat (length (flat_map route l))).
    { induction l as [|a l IH]; [reflexivity|]. cbn [sw flat_map length]. rewrite IH, app_length. lia. }
    rewrite E, seq_length in Q. unfold poll0 in Q. lia.
  Qed.

  (* Together: an execution that cannot go on has executed every task exactly once. *)
  Theorem C32_complete_partial : forall k s, wsteps cap ntask route false k s ->
    (1 <= cap)%nat -> (forall t, (t < ntask)%nat -> route t <> []) ->
    (forall s', ~ wstep cap ntask route false s s') ->
    (forall t, (t < ntask)%nat -> times t s = 1%nat) /\ (mp s = MFree \/ mp s = MAbort).
  Proof.
    intros k s H Hc Hne Hs. destruct (C32_progress _ _ _ H Hc Hne) as [(s' & S)|[M|M]].
    - destruct (Hs s' S).
    - split; [|auto]. eapply C32_all_done_partial; eauto. unfold told. rewrite M. exact I.
    - split; [|auto]. eapply C32_all_done_partial; eauto. unfold told. rewrite M. exact I.
  Qed.

  (* When the memory of the tasks is released, no worker uses a task any more. *)
  Theorem C62_released_unused : forall k s i t, wsteps cap ntask route false k s -> mp s = MFree -> ~ uses s i t.
  Proof.
    intros k s i t H M U. pose proof (WInv_all _ _ _ _ _ Hr _ _ H) as W. destruct W as [A B C D E F G H0 I0 J K].
    unfold pollok in J. rewrite M in *. destruct J as (J1 & J2). specialize (J1 eq_refl).
    assert (Z0 : wcnt s t = 0) by (destruct (Nat.lt_ge_cases t ntask) as [Q|Q]; [auto|apply G; auto]).
    specialize (C t). cbn [rem] in C.
    assert (P1 : forall j, 0 <= occ t (queue s j)) by (intros; apply occ_nonneg).
    assert (P2 : forall j, 0 <= tp t (pc s j)) by (intros; apply tp_nn).
    pose proof (tsum_nonneg _ nw P1). pose proof (tsum_nonneg _ nw P2).
    destruct (Nat.lt_ge_cases i nw) as [Hi|Hi].
    2: { destruct (I0 i Hi) as (I1 & I2). destruct U as [U|U]; [rewrite I2 in U; destruct U|rewrite I1 in U; exact U]. }
    pose proof (tsum_zero _ nw i P1 ltac:(lia) Hi) as Q1. pose proof (tsum_zero _ nw i P2 ltac:(lia) Hi) as Q2.
    assert (HH : ha t (pc s i) = 0 /\ hb t (pc s i) = 0).
    { assert (P3 : forall j, 0 <= ha t (pc s j)) by (intros; apply ha_nn).
      assert (P4 : forall j, 0 <= hb t (pc s j)) by (intros; apply hb_nn).
      destruct (Nat.lt_ge_cases t ntask) as [Ht|Ht].
      - destruct (count_zero ntask nw _ _ _ _ A B J1 t Ht) as (_ & _ & X & Y).
        split; [exact (tsum_zero _ nw i P3 X Hi)|exact (tsum_zero _ nw i P4 Y Hi)].
      - destruct (G t Ht) as (Wt & _). specialize (A t). specialize (H0 t). rewrite Wt in A. unfold cl in A. cbn [Z.eqb negb b1] in A.
        pose proof (tsum_nonneg _ nw P3). pose proof (tsum_nonneg _ nw P4). pose proof (ex_nonneg t (log s)).
        split; [apply (tsum_zero _ nw i P3); [lia|auto]|apply (tsum_zero _ nw i P4); [lia|auto]]. }
    destruct HH as (Ha & Hb). destruct U as [U|U].
    - cbn beta in Q1; rewrite occ_count in Q1. apply (count_occ_In Nat.eq_dec) in U. lia.
    - cbn beta in Q2, Ha, Hb. destruct (pc s i); try contradiction; subst; unfold ha, hb, tp in Ha, Hb, Q2; try rewrite Nat.eqb_refl in Ha; try rewrite Nat.eqb_refl in Hb; try rewrite Nat.eqb_refl in Q2; cbn [b1 andb] in Ha, Hb, Q2; lia.
  Qed.

  (* With one queue for every task the check before the release passes. *)
  Theorem C62_no_abort_partial : forall k s, wsteps cap ntask route false k s ->
    (forall t, (t < ntask)%nat -> (length (route t) <= 1)%nat) -> mp s <> MAbort.
  Proof.
    intros k s H L M. pose proof (WInv_all _ _ _ _ _ Hr _ _ H) as W. destruct W as [_ _ _ _ _ _ _ _ _ J _].
    unfold pollok in J. rewrite M in J. exact (J eq_refl L).
  Qed.
End Any.
Print Assumptions C32_at_most_once.
Print Assumptions C32_all_done_partial.
Print Assumptions C32_progress.
Print Assumptions C32_ends.
Print Assumptions C32_complete_partial.
Print Assumptions C62_released_unused.
Print Assumptions C62_no_abort_partial.

(* ---- executions ---- *)
(* who moves: worker i, or the caller; an early return of the wait is not used here *)
Definition mstep (cap ntask : nat) (route : nat -> list nat) (who : option nat) (s : wstate) : option wstate :=
  match s with mkw q p w c n m l =>
    match who with
    | Some i =>
        match p i with
        | WTop => Some (mkw q (upd p i WRead) w c n m l)
        | WRead => match q i with [] => None | t :: r => Some (mkw (upd q i r) (upd p i (WClaim t)) w c n m l) end
        | WClaim t => Some (mkw q (upd p i (WDec t (w t =? 0))) (if w t =? 0 then upd w t (Z.of_nat i + 1) else w) c n m l)
        | WDec t b => Some (mkw q (upd p i (if b then WRun t else WTop)) w (upd c t (c t - 1)) n m l)
        | WRun t => Some (mkw q (upd p i (WCount t)) w c n m ((i, t) :: l))
        | WCount t => Some (mkw q (upd p i WTop) w c (n - 1) m l)
        end
    | None =>
        match m with
        | MSched (t :: ts) => Some (mkw q p (upd w t 0) (upd c t (Z.of_nat (length (route t)))) n (MWrite t (route t) ts) l)
        | MSched [] => Some (mkw q p w c n MWait l)
        | MWrite t (k :: qs) ts => if Nat.ltb (length (q k)) cap then Some (mkw (upd q k (q k ++ [t])) p w c n (MWrite t qs ts) l)
                                   else None
        | MWrite t [] ts => Some (mkw q p w c n (MSched ts) l)
        | MWait => if n =? 0 then Some (mkw q p w c n (MPoll 0 0 0) l) else None
        | MPoll k i r => if Nat.ltb i ntask then Some (mkw q p w c n (MPoll k (S i) (r + c i)) l)
                         else if Nat.eqb i ntask then Some (mkw q p w c n (if r =? 0 then MFree else if Nat.ltb (S k) 50 then MPoll (S k) 0 0 else MAbort) l)
                         else None
        | _ => None
        end
    end
  end.
Lemma mstep_ok : forall cap ntask route who s s', mstep cap ntask route who s = Some s' -> wstep cap ntask route false s s'.
Proof.
  intros cap ntask route who [q p w c n m l] s'. destruct who as [i|]; cbn [mstep].
  - destruct (p i) as [| |t|t b|t|t] eqn:E; try (injection 1 as <-; econstructor; eassumption).
    destruct (q i) as [|t r] eqn:Q; [discriminate|]. injection 1 as <-. apply s_read; auto.
  - destruct m as [[|t ts]|t [|k qs] ts| |k i r| |]; try discriminate; try (injection 1 as <-; constructor; fail).
    + destruct (Nat.ltb_spec (length (q k)) cap); [|discriminate]. injection 1 as <-. constructor; auto.
    + destruct (Z.eqb_spec n 0); [|discriminate]. injection 1 as <-. constructor; auto.
    + destruct (Nat.ltb_spec i ntask); [injection 1 as <-; constructor; auto|].
      destruct (Nat.eqb_spec i ntask) as [->|]; [|discriminate]. injection 1 as <-. constructor.
Qed.
Fixpoint mrun (cap ntask : nat) (route : nat -> list nat) (l : list (option nat)) (s : wstate) : option wstate :=
  match l with [] => Some s | x :: l' => match mstep cap ntask route x s with Some s' => mrun cap ntask route l' s' | None => None end end.
Lemma mrun_ok : forall cap ntask route l k s s', wsteps cap ntask route false k s -> mrun cap ntask route l s = Some s' ->
  exists k', wsteps cap ntask route false k' s'.
Proof.
  intros cap ntask route. induction l as [|x l IH]; intros k s s' H; cbn [mrun]; [injection 1 as <-; eauto|].
  destruct (mstep cap ntask route x s) as [s1|] eqn:E; [|discriminate]. intros R. eapply IH; [|exact R].
  eapply w_S; [exact H|]. eapply mstep_ok; eauto.
Qed.
Lemma mrun_test : forall cap ntask route l (P : wstate -> bool),
  (match mrun cap ntask route l (winit ntask) with Some s => P s | None => false end) = true ->
  exists k s, wsteps cap ntask route false k s /\ P s = true.
Proof.
  intros cap ntask route l P H. destruct (mrun cap ntask route l (winit ntask)) as [s|] eqn:E; [|discriminate].
  destruct (mrun_ok _ _ _ _ _ _ _ (w_0 _ _ _ _) E) as (k & Hk). eauto.
Qed.

(* With a spurious wake-up the caller is told too early: a task has not been executed. *)
Theorem C32_early_refuted : exists k s, wsteps 1 1 (fun _ => [0%nat]) true k s /\ told s /\ times 0%nat s = 0%nat.
Proof.
  assert (E : exists k s, wsteps 1 1 (fun _ => [0%nat]) true k s /\ mp s = MPoll 0 0 0 /\ log s = []).
  { set (r := fun _ : nat => [0%nat]). pose proof (w_0 1 1 r true) as H. unfold winit in H. cbn [seq] in H.
    pose proof (w_S _ _ _ _ _ _ _ H (s_sched 1 1 r true _ _ _ _ _ _ _ _)) as H1.
    pose proof (w_S _ _ _ _ _ _ _ H1 (s_write 1 1 r true (fun _ => []) _ _ _ _ _ _ 0%nat _ _ Nat.lt_0_1)) as H2.
    pose proof (w_S _ _ _ _ _ _ _ H2 (s_written 1 1 r true _ _ _ _ _ _ _ _)) as H3.
    pose proof (w_S _ _ _ _ _ _ _ H3 (s_all 1 1 r true _ _ _ _ _ _)) as H4.
    pose proof (w_S _ _ _ _ _ _ _ H4 (s_wait 1 1 r true _ _ _ _ _ _ (or_intror eq_refl))) as H5.
    eexists. eexists. split; [exact H5|]. split; reflexivity. }
  destruct E as (k & s & H & M & L). exists k, s. split; [exact H|]. unfold told, times. rewrite M, L. split; [exact I|reflexivity].
Qed.
Print Assumptions C32_early_refuted.

(* With two queues per task the check can fail: the second worker is slower than the fifty rounds of polling. *)
Theorem C62_two_queues_refuted : exists k s, wsteps 16 1 (fun _ => [0; 1]%nat) false k s /\ mp s = MAbort.
Proof.
  destruct (mrun_test 16 1 (fun _ => [0; 1]%nat)
    ([None; None; None; None; None; Some 0; Some 0; Some 0; Some 0; Some 0; None]%nat ++ repeat None 100)
    (fun s => match mp s with MAbort => true | _ => false end)) as (k & s & H & E); [vm_compute; reflexivity|].
  exists k, s. split; [exact H|]. destruct (mp s); discriminate || reflexivity.
Qed.
Print Assumptions C62_two_queues_refuted.

(* Two workers, three tasks offered to both: worker 1 wins task 1, worker 0 the others; the caller
   passes the check at its second round. *)
Example C32_nonvacuous :
  let route := fun t : nat => [0; 1]%nat in
  (forall t, (t < 3)%nat -> Forall (fun k => (k < 2)%nat) (route t)) /\
  (forall t, (t < 3)%nat -> route t <> []) /\
  (exists k s, wsteps 3 3 route false k s /\ mp s = MFree /\ told s /\ In (1, 1)%nat (log s) /\ In (0, 2)%nat (log s)) /\
  (exists k s, wsteps 3 3 route false k s /\ uses s 1%nat 2%nat /\ uses s 0%nat 1%nat) /\
  targets (mksopt true true) 3 2 [] = Some ([2; 0], 1).
Proof.
  cbn zeta. split; [intros t _; repeat constructor|]. split; [discriminate|]. split.
  - destruct (mrun_test 3 3 (fun _ => [0; 1]%nat)
      (repeat None 13 ++ repeat (Some 0%nat) 7 ++ [Some 1%nat; Some 1%nat; Some 1%nat; Some 1%nat] ++ repeat (Some 1%nat) 6 ++ repeat (Some 0%nat) 4
        ++ repeat (Some 0%nat) 5 ++ repeat None 4 ++ repeat (Some 1%nat) 4 ++ repeat None 5)
      (fun s => match mp s with MFree => true | _ => false end
                && existsb (fun x => Nat.eqb (fst x) 1 && Nat.eqb (snd x) 1) (log s) && existsb (fun x => Nat.eqb (fst x) 0 && Nat.eqb (snd x) 2) (log s)))
      as (k & s & H & E); [vm_compute; reflexivity|].
    apply andb_true_iff in E. destruct E as (E & E3). apply andb_true_iff in E. destruct E as (E1 & E2).
    assert (In2 : forall a b l, existsb (fun x => Nat.eqb (fst x) a && Nat.eqb (snd x) b) l = true -> In (a, b) l).
    { intros a b l Q. apply existsb_exists in Q. destruct Q as ([x y] & Q1 & Q2). apply andb_true_iff in Q2. destruct Q2 as (Q2 & Q3).
      apply Nat.eqb_eq in Q2, Q3. cbn in Q2, Q3. subst. exact Q1. }
    exists k, s. split; [exact H|]. assert (M : mp s = MFree) by (destruct (mp s); discriminate || reflexivity).
    split; [exact M|]. split; [unfold told; rewrite M; exact I|]. split; apply In2; assumption.
  - split; [|reflexivity].
    destruct (mrun_test 3 3 (fun _ => [0; 1]%nat) (repeat None 13)
      (fun s => existsb (Nat.eqb 2) (queue s 1%nat) && existsb (Nat.eqb 1) (queue s 0%nat))) as (k & s & H & E); [vm_compute; reflexivity|].
    apply andb_true_iff in E. destruct E as (E1 & E2). apply existsb_exists in E1, E2. destruct E1 as (x & X1 & X2), E2 as (y & Y1 & Y2).
    apply Nat.eqb_eq in X2, Y2. subst. exists k, s. split; [exact H|]. split; left; assumption.
Qed.

(* One queue per task: the hypotheses of C62 meet an execution that releases the tasks. *)
Example C62_nonvacuous :
  let route := fun t : nat => [t mod 2]%nat in
  (forall t, (t < 2)%nat -> Forall (fun k => (k < 2)%nat) (route t)) /\
  (forall t, (t < 2)%nat -> (length (route t) <= 1)%nat) /\
  exists k s, wsteps 16 2 route false k s /\ mp s = MFree /\ times 0 s = 1%nat /\ times 1 s = 1%nat.
Proof.
  cbn zeta. split; [intros t _; constructor; [apply Nat.mod_upper_bound; lia|constructor]|]. split; [intros; cbn [length]; lia|].
  destruct (mrun_test 16 2 (fun t => [t mod 2]%nat)
    (repeat None 7 ++ repeat (Some 0%nat) 5 ++ repeat (Some 1%nat) 5 ++ repeat None 4)
    (fun s => match mp s with MFree => true | _ => false end && Nat.eqb (times 0 s) 1 && Nat.eqb (times 1 s) 1)) as (k & s & H & E); [vm_compute; reflexivity|].
  apply andb_true_iff in E. destruct E as (E & E3). apply andb_true_iff in E. destruct E as (E1 & E2). apply Nat.eqb_eq in E2, E3.
  exists k, s. split; [exact H|]. split; [destruct (mp s); discriminate || reflexivity|auto].
Qed.
