(* Properties_Counter.v: C34, the completion counter. *)
From Coq Require Import ZArith Lia Bool List Arith.
From Verif Require Import MThread MCounter PThread PCounter.
Import ListNotations.
Local Open Scope Z_scope.

(* the number of tasks: thread i has d i of them *)
Fixpoint total (d : nat -> nat) (nw : nat) : Z :=
  match nw with O => 0 | S k => total d k + Z.of_nat (d (S k)) end.

(* executions of k steps *)
Inductive steps (sp : bool) (s0 : state clab unit cev) : nat -> state clab unit cev -> Prop :=
| st_0 : steps sp s0 0 s0
| st_S : forall k b i s s', steps sp s0 k s -> step ccode b i s s' -> (b = true -> sp = true) -> steps sp s0 (S k) s'.

Definition p0 (d : nat -> nat) (nw : nat) (i : nat) : per :=
  match i with
  | O => mkper 0 0 false 8
  | S _ => if Nat.leb i nw then mkper (Z.of_nat (d i)) (Z.of_nat (d i)) false (wgt (d i) 2) else mkper 0 0 false 0
  end.

Lemma p0_sum : forall (f : per -> Z) d nw, tsum (fun i => f (p0 d nw i)) (S nw) = f (mkper 0 0 false 8) + tsum (fun i => f (mkper (Z.of_nat (d (S i))) (Z.of_nat (d (S i))) false (wgt (d (S i)) 2))) nw.
Proof.
  intros f d nw. assert (E : forall k, (k <= nw)%nat -> tsum (fun i => f (p0 d nw i)) (S k) = f (mkper 0 0 false 8) + tsum (fun i => f (mkper (Z.of_nat (d (S i))) (Z.of_nat (d (S i))) false (wgt (d (S i)) 2))) k).
  { induction k as [|k IH]; intros Hk; [cbn [tsum p0]; lia|]. change (tsum (fun i => f (p0 d nw i)) (S (S k))) with (tsum (fun i => f (p0 d nw i)) (S k) + f (p0 d nw (S k))).
    rewrite IH by lia. cbn [tsum]. unfold p0. rewrite (proj2 (Nat.leb_le (S k) nw)) by lia. lia. }
  apply E. lia.
Qed.
Lemma total_sum : forall d nw, tsum (fun i => Z.of_nat (d (S i))) nw = total d nw.
Proof. intros d. induction nw; cbn [tsum total]; lia. Qed.

Lemma CInv_init : forall sp m nw d, CInv sp (total d nw) nw (cinit m (total d nw) nw d) (p0 d nw).
Proof.
  intros sp m nw d. unfold CInv. cbn [thr mem trace cinit]. repeat split.
  - intros [|i]; cbn [p0 pe pr pw pg].
    + constructor.
    + destruct (Nat.leb (S i) nw); cbn [pe pr pw pg]; constructor.
  - intros [|i] Hi; [lia|]. rewrite (proj2 (Nat.leb_gt (S i) nw)) by lia. reflexivity.
  - rewrite p0_sum. cbn [pr]. rewrite total_sum. unfold setm. rewrite Z.eqb_refl. lia.
  - rewrite p0_sum. cbn [pe dones]. rewrite total_sum. lia.
  - discriminate.
  - intros _ [|x t1] t2 i; discriminate.
  - discriminate.
Qed.

Lemma CInv_steps : forall sp m nw d k s, steps sp (cinit m (total d nw) nw d) k s ->
  exists p, CInv sp (total d nw) nw s p /\ tsum (fun j => pg (p j)) (S nw) + Z.of_nat k <= tsum (fun j => pg (p0 d nw j)) (S nw).
Proof.
  intros sp m nw d k s H. induction H as [|k b i s s' H (p & HI & Hg) Hs Hb].
  - exists (p0 d nw). split; [apply CInv_init|]. lia.
  - destruct (CInv_step _ _ _ _ _ _ _ _ HI Hb Hs) as (p' & HI' & Hg'). exists p'. split; [exact HI'|]. lia.
Qed.
Lemma exec_steps : forall sp s0 s, exec ccode sp s0 s -> exists k, steps sp s0 k s.
Proof. intros sp s0 s H. induction H as [|b i s s' H (k & IH) Hs Hb]; [exists O; constructor|]. exists (S k). econstructor; eauto. Qed.
Lemma CInv_exec : forall sp m nw d s, exec ccode sp (cinit m (total d nw) nw d) s -> exists p, CInv sp (total d nw) nw s p.
Proof. intros sp m nw d s H. destruct (exec_steps _ _ _ H) as (k & Hk). destruct (CInv_steps _ _ _ _ _ _ Hk) as (p & HI & _). eauto. Qed.

(* C34: any number of workers with any numbers of tasks, every interleaving.  When the waiting
   thread is released, all tasks have been done (executions without spurious wake-ups). *)
Theorem C34_released_after_last_partial : forall m nw d s t1 t2 i,
  exec ccode false (cinit m (total d nw) nw d) s ->
  trace s = t1 ++ (i, Released) :: t2 -> dones t2 = total d nw.
Proof.
  intros m nw d s t1 t2 i H E. destruct (CInv_exec _ _ _ _ _ H) as (p & HP & HO & HC & HD & HA & HT & HF). eauto.
Qed.
Print Assumptions C34_released_after_last_partial.

(* the counter never goes below zero or above the number of tasks *)
Theorem C34_counter_range : forall sp m nw d s, exec ccode sp (cinit m (total d nw) nw d) s ->
  0 <= mem s CNT <= total d nw.
Proof.
  intros sp m nw d s H.
  assert (A : exists p, CInv sp (total d nw) nw s p /\ tsum (fun j => pr (p j)) (S nw) <= total d nw).
  { induction H as [|b i s s' H (p & HI & Hle) Hs Hb].
    - exists (p0 d nw). split; [apply CInv_init|]. rewrite p0_sum. cbn [pr]. rewrite total_sum. lia.
    - destruct (CInv_step _ _ _ _ _ _ _ _ HI Hb Hs) as (p' & HI' & _). exists p'. split; [exact HI'|].
      pose proof HI as (_ & _ & HC & _). pose proof HI' as (_ & _ & HC' & _). rewrite <- HC in Hle. rewrite <- HC'.
      pose proof HI as (HP & _). inversion Hs; subst; cbn [mem] in *; auto.
      + pose proof (HP i) as Hp. cbn [thr] in Hp. rewrite H0 in Hp. inversion Hp; subst. unfold setm. rewrite Z.eqb_refl. lia.
      + pose proof (HP i) as Hp. cbn [thr] in Hp. rewrite H0 in Hp. inversion Hp.
      + pose proof (HP i) as Hp. cbn [thr] in Hp. rewrite H0 in Hp. inversion Hp.
      + pose proof (HP i) as Hp. cbn [thr] in Hp. rewrite H0 in Hp. inversion Hp. }
  destruct A as (p & HI & Hle). pose proof HI as (HP & _ & HC & _). rewrite HC. split; [|exact Hle].
  apply tsum_nonneg. intros i. specialize (HP i). apply pos_nonneg in HP. lia.
Qed.
Print Assumptions C34_counter_range.

Lemma tsum_pos : forall f n, tsum f n <> 0 -> exists i, (i < n)%nat /\ f i <> 0.
Proof.
  intros f n. induction n as [|n IH]; cbn [tsum]; intros H; [lia|]. destruct (Z.eq_dec (f n) 0) as [E|E].
  - destruct IH as (i & Hi & Hf); [lia|]. exists i. split; [lia|auto].
  - exists n. split; [lia|auto].
Qed.

(* no wake-up is lost: as long as the waiting thread is not released, some thread can go on,
   without help by spurious wake-ups *)
Theorem C34_never_stuck : forall sp m nw d s, exec ccode sp (cinit m (total d nw) nw d) s ->
  In (0%nat, Released) (trace s) \/ exists i s', step ccode false i s s'.
Proof.
  intros sp m nw d s H. destruct (CInv_exec _ _ _ _ _ H) as (p & HP & HO & HC & HD & HA & HT & HF). clear H.
  destruct s as [m' o t tr]. cbn [mem thr trace] in *.
  assert (Hsig : forall i k, t i = Run (Signal READY k) -> exists i s', step ccode false i (mkstate m' o t tr) s').
  { intros i k E. destruct (t 0%nat) as [c|cv l k'|x k'] eqn:E0.
    - exists i. eexists. eapply s_signal0; eauto. intros j l k' Ej. pose proof (HP j) as Hj. rewrite Ej in Hj. inversion Hj; subst.
      match goal with H : true = Nat.eqb j 0 |- _ => symmetry in H; apply Nat.eqb_eq in H; subst j end. congruence.
    - exists i. pose proof (HP 0%nat) as H0. rewrite E0 in H0. inversion H0; subst. eexists. eapply s_signal1; eauto.
    - pose proof (HP 0%nat) as H0. rewrite E0 in H0. inversion H0. }
  destruct (o CLOCK) as [i|] eqn:Eo.
  - (* the holder can go on *)
    right. pose proof (HP i) as Hp. assert (Ow : owns (mkstate m' o t tr) i = true) by (unfold owns; cbn [owner]; rewrite Eo; apply Nat.eqb_refl).
    rewrite Ow in Hp. inversion Hp; subst; match goal with E : _ = t i |- _ => symmetry in E end; eauto;
      try (exists i; eexists; econstructor; eauto; fail).
  - assert (Ow : forall i, owns (mkstate m' o t tr) i = false) by (intros; unfold owns; cbn [owner]; rewrite Eo; reflexivity).
    assert (Hgo : forall i, thr (mkstate m' o t tr) i <> Run Halt -> (forall cv l k, t i <> Asleep cv l k) -> exists i s', step ccode false i (mkstate m' o t tr) s').
    { intros i H1 H2. cbn [thr] in H1. pose proof (HP i) as Hp. rewrite Ow in Hp. inversion Hp; subst; match goal with E : _ = t i |- _ => symmetry in E end; eauto;
        try congruence; try (exists i; eexists; econstructor; eauto; fail). }
    destruct (t 0%nat) as [c|cv l k|x k] eqn:E0.
    + pose proof (HP 0%nat) as H0. rewrite E0, Ow in H0. inversion H0; subst;
        try (left; apply HF; reflexivity); right; apply (Hgo 0%nat); cbn [thr]; rewrite E0; discriminate.
    + right. destruct (HA _ _ _ eq_refl) as [Hc|(i & Hw)].
      * rewrite HC in Hc. destruct (tsum_pos _ _ Hc) as (i & Hi & Hr). cbn beta in Hr. apply (Hgo i); cbn [thr].
        -- intros E. pose proof (HP i) as Hp. rewrite E in Hp. inversion Hp; congruence.
        -- intros cv' l' k' E. pose proof (HP i) as Hp. rewrite E in Hp. inversion Hp; congruence.
      * pose proof (pos_own _ _ _ _ _ _ _ _ _ (HP i) Hw) as E. rewrite Ow in E. discriminate.
    + pose proof (HP 0%nat) as H0. rewrite E0 in H0. inversion H0.
Qed.
Print Assumptions C34_never_stuck.

(* and every execution is finite: nobody waits for ever *)
Theorem C34_ends : forall sp m nw d k s, steps sp (cinit m (total d nw) nw d) k s ->
  Z.of_nat k <= 9 * total d nw + 2 * Z.of_nat nw + 8.
Proof.
  intros sp m nw d k s H. destruct (CInv_steps _ _ _ _ _ _ H) as (p & (HP & _) & Hg). rewrite p0_sum in Hg. cbn [pg] in Hg.
  assert (0 <= tsum (fun j => pg (p j)) (S nw)) by (apply tsum_nonneg; intros i; specialize (HP i); apply pos_nonneg in HP; lia).
  assert (E : tsum (fun i => wgt (d (S i)) 2) nw = 9 * total d nw + 2 * Z.of_nat nw).
  { clear. induction nw; cbn [tsum total]; [reflexivity|]. rewrite IHnw. unfold wgt. lia. }
  lia.
Qed.
Print Assumptions C34_ends.

(* What is missing: pthread_cond_wait may return without a signal; armas_counter_wait does not
   look at the counter again and releases the thread too early. *)
Definition d_two (i : nat) : nat := 1.
Lemma spurious_run :
  tells ccode [mkact 0%nat None 0%nat false; mkact 0%nat None 0%nat true] (cinit (fun _ => 0) (total d_two 2) 2 d_two)
    (fun s => match trace s with [(0, Released)]%nat => true | _ => false end) = true.
Proof. vm_compute. reflexivity. Qed.
Theorem C34_spurious_refuted : exists s, exec ccode true (cinit (fun _ => 0) (total d_two 2) 2 d_two) s /\
  trace s = [(0%nat, Released)] /\ total d_two 2 = 2.
Proof.
  destruct (tells_exec _ true _ _ _ spurious_run eq_refl) as (s & H & E). exists s. split; [exact H|]. split; [|reflexivity].
  destruct (trace s) as [|([|i] & e) [|? ?]]; try discriminate; destruct e; try discriminate. reflexivity.
Qed.
Print Assumptions C34_spurious_refuted.

(* two workers, one task each, the waiting thread sleeps and is released *)
Lemma counter_run :
  tells ccode [mkact 0%nat None 0%nat false; mkact 1%nat None 0%nat false; mkact 2%nat None 0%nat false; mkact 0%nat None 0%nat false]
    (cinit (fun _ => 0) (total d_two 2) 2 d_two)
    (fun s => match trace s with [(0, Released); (2, TaskDone); (1, TaskDone)]%nat => true | _ => false end) = true.
Proof. vm_compute. reflexivity. Qed.
Example C34_nonvacuous : exists s, exec ccode false (cinit (fun _ => 0) (total d_two 2) 2 d_two) s /\
  exists i t2, trace s = [] ++ (i, Released) :: t2 /\ dones t2 = 2.
Proof.
  destruct (tells_exec _ false _ _ _ counter_run eq_refl) as (s & H & E). exists s. split; [exact H|]. exists 0%nat, (tl (trace s)).
  assert (A : exists t2, trace s = (0%nat, Released) :: t2).
  { destruct (trace s) as [|([|i] & e) t2]; try discriminate; destruct e; try discriminate. eauto. }
  destruct A as (t2 & A). split; [rewrite A; reflexivity|]. eapply (C34_released_after_last_partial _ 2 d_two s []); eauto.
  rewrite A. reflexivity.
Qed.
