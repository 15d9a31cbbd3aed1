(* Properties_Queue.v: C31 and C61, the task queue shared by threads. *)
From Coq Require Import ZArith Lia Bool List Arith.
From Verif Require Import MThread MQueue SpecQueue PThread PQueue.
Import ListNotations.
Local Open Scope Z_scope.

(* C31: under every interleaving of any number of threads making any of the calls, what the
   callers see is a history of a bounded first-in first-out queue: each call takes effect at one
   moment between the call and its return; items are delivered once each, in the order in which
   they were put, never more than the capacity being in the queue; a full queue is reported to
   the writer that does not wait, an empty one to the reader that does not wait (spec_step). *)
Theorem C31_linearizable : forall cap m uses sp s, 0 <= cap < 2 ^ 32 ->
  exec (qcode cap uses) sp (qinit m cap) s ->
  exists h S q, legal cap h S q /\ seen h = trace s.
Proof.
  intros cap m uses sp s Hc H. destruct (QInv_exec cap uses false Hc ltac:(discriminate) sp m s H) as (S & q & d & HL & _).
  destruct (glegal_legal cap _ _ _ HL) as (h & S' & _ & HL' & E). eauto.
Qed.
Print Assumptions C31_linearizable.

Lemma legal_cap : forall cap h S q, 0 <= cap -> legal cap h S q -> all_put h = all_taken h ++ q /\ Z.of_nat (length q) <= cap.
Proof.
  intros cap h S q Hc H. induction H as [|h S q i o S' H IH Hi HS|h S q i o rc v q' S' H IH Hi Hs HS|h S q i o rc v S' H IH Hi HS].
  - split; [reflexivity|exact Hc].
  - cbn [all_put all_taken put_of taken_of]. rewrite !app_nil_r. auto.
  - destruct IH as (E & Hq). cbn [all_put all_taken]. 
    assert (A : forall x, puts cap x q rc v q' -> all_put h ++ [x] = (all_taken h ++ []) ++ q' /\ Z.of_nat (length q') <= cap).
    { intros x (H1 & _ & _ & ->). rewrite E, app_nil_r, app_assoc. split; [reflexivity|]. rewrite app_length. cbn [length]. lia. }
    assert (B : takes q rc v q' -> all_put h ++ [] = (all_taken h ++ [v]) ++ q' /\ Z.of_nat (length q') <= cap).
    { intros (_ & ->). rewrite E, app_nil_r, <- app_assoc. split; [reflexivity|]. cbn [length] in Hq. lia. }
    assert (C : q' = q -> all_put h ++ [] = (all_taken h ++ []) ++ q' /\ Z.of_nat (length q') <= cap).
    { intros ->. rewrite !app_nil_r. auto. }
    destruct o; cbn [spec_step] in Hs; cbn [put_of taken_of].
    + destruct Hs as [Hs|(_ & -> & _ & ->)]; [pose proof Hs as (_ & -> & _); exact (A _ Hs)|exact (C eq_refl)].
    + auto.
    + destruct Hs as [Hs|(-> & -> & _ & ->)]; [pose proof Hs as (-> & _); exact (B Hs)|exact (C eq_refl)].
    + auto.
    + destruct Hs as (_ & _ & ->). auto.
    + destruct Hs as (_ & _ & ->). auto.
    + destruct Hs as (_ & _ & ->). auto.
    + destruct Hs as (_ & _ & ->). auto.
    + destruct Hs as (_ & _ & ->). auto.
    + auto.
    + auto.
  - cbn [all_put all_taken put_of taken_of]. rewrite !app_nil_r. auto.
Qed.

(* the items taken out are the first of those put in, one after the other *)
Theorem C31_in_order : forall cap m uses sp s, 0 <= cap < 2 ^ 32 ->
  exec (qcode cap uses) sp (qinit m cap) s ->
  exists h S q, legal cap h S q /\ seen h = trace s /\
    all_put h = all_taken h ++ q /\ Z.of_nat (length q) <= cap.
Proof.
  intros cap m uses sp s Hc H. destruct (C31_linearizable cap m uses sp s Hc H) as (h & S & q & HL & E).
  exists h, S, q. pose proof (legal_cap cap h S q ltac:(lia) HL). tauto.
Qed.
Print Assumptions C31_in_order.

(* no access to the queue races with another, none is outside of the array, no division by zero *)
Theorem C31_no_race : forall cap m uses sp s, 0 <= cap < 2 ^ 32 ->
  exec (qcode cap uses) sp (qinit m cap) s -> ~ race s /\ ~ faulty s.
Proof.
  intros cap m uses sp s Hc H. destruct (QInv_exec cap uses false Hc ltac:(discriminate) sp m s H) as (S & q & d & HI).
  eapply MInv_good. exact HI.
Qed.
Print Assumptions C31_no_race.

(* C61: callers that sleep are woken.

   the mutex is never held for ever: its holder can always go on *)
Theorem C61_holder_runs : forall cap m uses sp s i, 0 <= cap < 2 ^ 32 ->
  exec (qcode cap uses) sp (qinit m cap) s -> owner s MLOCK = Some i -> exists s', step (qcode cap uses) false i s s'.
Proof.
  intros cap m uses sp s i Hc H Ho. destruct (QInv_exec cap uses false Hc ltac:(discriminate) sp m s H) as (S & q & d & HI).
  eapply MInv_owner; [exact HI|exact Ho].
Qed.
Print Assumptions C61_holder_runs.

(* a call of taskq_dequeue, taskq_read or taskq_wait_while_empty that sleeps for an item *)
Definition sleeps_for_item (s : state qlab qop qev) (i : nat) : Prop :=
  (exists b, thr s i = Asleep EMPTY MLOCK (Goto (DeqLoop b))) \/
  thr s i = Asleep EMPTY MLOCK (Unlock MLOCK (Goto ReadLoop)) \/
  thr s i = Asleep EMPTY MLOCK (Unlock MLOCK (ret WaitWhileEmpty 0 0)).

(* If all writers broadcast (the callers in src/workers do), nobody sleeps for an item while there
   is one and the mutex is free, even if there are no spurious wake-ups. *)
Theorem C61_readers_woken_partial : forall cap m uses sp s i, 0 <= cap < 2 ^ 32 ->
  (forall v b, uses (EnqNowait v b) = true \/ uses (Enq v b) = true -> b = true) ->
  exec (qcode cap uses) sp (qinit m cap) s -> owner s MLOCK = None -> mem s COUNT <> 0 -> ~ sleeps_for_item s i.
Proof.
  intros cap m uses sp s i Hc Hu H Ho Hn.
  assert (Hu' : forall o, uses o = true -> true = true -> match o with EnqNowait _ b | Enq _ b => b = true | _ => True end).
  { intros [] Ho' _; eauto. }
  destruct (QInv_exec cap uses true Hc Hu' sp m s H) as (S & q & d & HI).
  assert (A : forall cv l k, thr s i = Asleep cv l k -> honQ k -> False).
  { intros cv l k E Hk. pose proof (MInv_sleep _ _ _ _ _ _ _ _ _ _ _ _ _ _ _ _ _ _ _ _ _ HI Ho E Hk) as HJ.
    apply Hn. apply Z.eqb_eq. exact HJ. }
  intros [(b & E)|[E|E]]; eapply A; eauto; unfold honQ; eauto.
Qed.
Print Assumptions C61_readers_woken_partial.

(* What is missing: with taskq_enqueue_nowait(q, v, 0) or taskq_enqueue(q, v, 0) the signal goes to
   one of the readers, and only if the queue was empty: a second reader sleeps on although there
   is an item. *)
Definition all_ops (o : qop) : bool := true.


(* the calls of a run: who calls what; the third component is the thread woken by a signal *)
Definition calls (l : list (nat * qop * nat)) : list (@act qop) :=
  flat_map (fun x => match x with (i, o, j) => [mkact i (Some o) j false] end) l.
Definition ready (n : nat) : list (@act qop) := map (fun i => mkact i None 0 false) (seq 0 n).

Lemma second_reader_run :
  tells (qcode 2 all_ops)
    (ready 3 ++ calls [(0, Deq true, 0); (1, Deq true, 0); (2, EnqNowait 7 false, 0); (2, EnqNowait 8 false, 0)]%nat)
    (qinit (fun _ => 0) 2)
    (fun s => match owner s MLOCK with None => true | _ => false end && (mem s COUNT =? 2) &&
              match thr s 1%nat with Asleep 0 0 (Goto (DeqLoop true)) => true | _ => false end) = true.
Proof. vm_compute. reflexivity. Qed.

Theorem C61_second_reader_refuted : exists s, exec (qcode 2 all_ops) false (qinit (fun _ => 0) 2) s /\
  owner s MLOCK = None /\ mem s COUNT = 2 /\ sleeps_for_item s 1.
Proof.
  destruct (tells_exec _ false _ _ _ second_reader_run eq_refl) as (s & H & E). exists s. split; [exact H|]. clear H.
  apply andb_prop in E. destruct E as (E & E3). apply andb_prop in E. destruct E as (E1 & E2).
  destruct (owner s MLOCK); [discriminate|]. split; [reflexivity|]. split; [apply Z.eqb_eq, E2|]. left. exists true.
  destruct (thr s 1%nat) as [| [| |] [| |] []|]; try discriminate. destruct l; try discriminate. destruct b; try discriminate. reflexivity.
Qed.
Print Assumptions C61_second_reader_refuted.

(* Also missing: no function of the interface signals the condition variable on which the writers
   sleep, so a writer that found the queue full in taskq_enqueue sleeps for ever (unless there
   are spurious wake-ups), whatever the readers take out. *)
Fixpoint nofull (c : qprog) : Prop :=
  match c with
  | Halt | Fault | Goto _ => True
  | Pick k => forall x, nofull (k x)
  | Emit _ k | Put _ _ k | Lock _ k | Unlock _ k | FWait _ _ k => nofull k
  | Get _ k | Cas _ _ _ k | Xchg _ _ k | Fadd _ _ k => forall v, nofull (k v)
  | FWake _ _ k => nofull k
  | Wait _ _ k => nofull k
  | Signal cv k | Broadcast cv k => cv <> FULL /\ nofull k
  end.
Definition nofull_t (t : tstate qlab qop qev) : Prop :=
  match t with Run c => nofull c | Asleep _ _ k => nofull k | FAsleep _ k => nofull k end.

Lemma nofull_append : forall cap v k, (forall b, nofull (k b)) -> nofull (taskq_append cap v k).
Proof. intros. unfold taskq_append. cbn [nofull]. intros c t. destruct (in_array cap t); cbn [negb nofull]; auto. intros c' t' s. destruct (s =? 0); cbn [nofull]; auto. Qed.
Lemma nofull_remove : forall cap k, (forall v b, nofull (k v b)) -> nofull (taskq_remove cap k).
Proof. intros. unfold taskq_remove. cbn [nofull]. intros c t h. destruct (in_array cap h); cbn [negb nofull]; auto. intros v h' c' h'' s. destruct (s =? 0); cbn [nofull]; auto. Qed.
Lemma nofull_notify : forall s b k, nofull k -> nofull (notify s b k).
Proof. intros. unfold notify. destruct s, b; cbn [nofull]; auto; split; auto; discriminate. Qed.
Lemma nofull_enq : forall cap v b k, (forall r, nofull (k r)) -> nofull (taskq_enqueue_nowait cap v b k).
Proof.
  intros. unfold taskq_enqueue_nowait. cbn [nofull]. intros c s. destruct (c =? s); [apply H|].
  apply nofull_append. intros. apply nofull_notify. apply H.
Qed.
Lemma nofull_deq : forall cap b k, (forall r v, nofull (k r v)) -> nofull (taskq_dequeue_nowait cap b k).
Proof.
  intros. unfold taskq_dequeue_nowait. cbn [nofull]. intros c. destruct (c =? 0); [apply H|].
  apply nofull_remove. intros. apply nofull_notify. apply H.
Qed.
Lemma nofull_wait : forall cv cond k, nofull k -> nofull (wait_if cv cond k).
Proof. intros. unfold wait_if. cbn [nofull]. intros c s. destruct (cond c s); exact H. Qed.
Lemma nofull_ret : forall o rc v, nofull (ret o rc v).
Proof. intros. exact I. Qed.
Local Hint Resolve nofull_append nofull_remove nofull_notify nofull_enq nofull_deq nofull_wait nofull_ret : nf.

Lemma nofull_code : forall cap uses l, nofull (qcode cap uses l).
Proof.
  intros cap uses l. destruct l; cbn [qcode].
  - cbn [nofull]. intros o. destruct (uses o); [|exact I]. unfold call. cbn [nofull].
    destruct o; cbn [nofull]; auto with nf; apply nofull_wait, nofull_ret.
  - unfold taskq_enqueue_loop. cbn [nofull]. intros c s. destruct (c =? s); [exact I|]. apply nofull_append. intros. apply nofull_notify, nofull_ret.
  - unfold taskq_dequeue_loop. cbn [nofull]. intros c. destruct (c =? 0); [exact I|]. apply nofull_remove. intros. apply nofull_notify, nofull_ret.
  - apply nofull_deq. intros r v. destruct (r =? 0); [apply nofull_ret|apply nofull_wait; exact I].
  - apply nofull_enq. intros r. destruct (r =? 0); [apply nofull_ret|apply nofull_wait; exact I].
Qed.

Lemma nofull_step : forall cap uses i s s', (forall j, nofull_t (thr s j)) -> step (qcode cap uses) false i s s' ->
  (forall j, nofull_t (thr s' j)) /\ forall j l k, thr s j = Asleep FULL l k -> thr s' j = Asleep FULL l k.
Proof.
  intros cap uses i s s' HN H.
  assert (A : forall m o t tr c, (forall j, nofull_t (t j)) -> nofull c -> forall x, t i = Run x -> s = mkstate m o t tr ->
     (forall j, nofull_t (sett t i (Run c) j)) /\ forall j l k, t j = Asleep FULL l k -> sett t i (Run c) j = Asleep FULL l k).
  { intros m o t tr c Ht Hc x Ex _. split; intros j; destruct (Nat.eq_dec j i) as [->|Hn];
      rewrite ?sett_same, ?sett_other by auto; auto. intros l k E. congruence. }
  inversion H; subst; cbn [thr] in *; pose proof (HN i) as Hi;
    match goal with E : _ i = _ |- _ => rewrite E in Hi; cbn [nofull_t nofull] in Hi end;
    try (eapply A; eauto; fail).
  - eapply A; eauto. apply nofull_code.
  - (* futex wait: cannot be *) destruct (m x =? v).
    + split; intros j; destruct (Nat.eq_dec j i) as [->|Hn]; rewrite ?sett_same, ?sett_other by auto; auto. intros l k' E. congruence.
    + eapply A; eauto.
  - split; intros j'; destruct (Nat.eq_dec j' j) as [->|Hn]; rewrite ?sett_same; rewrite ?(sett_other _ _ _ _ j j') by auto;
      try (eapply A; eauto; fail).
    + pose proof (HN j) as Hj. rewrite H1 in Hj. exact Hj.
    + intros l k0 E. congruence.
  - split; intros j; destruct (Nat.eq_dec j i) as [->|Hn]; rewrite ?sett_same, ?sett_other by auto; auto; unfold fwake_all.
    + pose proof (HN j) as Hj. destruct (t j); auto. destruct (x0 =? x); auto.
    + intros l k0 E. congruence.
    + intros l k0 E. rewrite E. reflexivity.
  - split; intros j; destruct (Nat.eq_dec j i) as [->|Hn]; rewrite ?sett_same, ?sett_other by auto; auto. intros l' k' E. congruence.
  - destruct Hi as (Hcv & Hi). split; intros j'; destruct (Nat.eq_dec j' j) as [->|Hn]; rewrite ?sett_same; rewrite ?(sett_other _ _ _ _ j j') by auto;
      try (eapply A; eauto; fail).
    + pose proof (HN j) as Hj. rewrite H1 in Hj. exact Hj.
    + intros l' k0 E. congruence.
  - destruct Hi as (Hcv & Hi). eapply A; eauto.
  - destruct Hi as (Hcv & Hi). split; intros j; destruct (Nat.eq_dec j i) as [->|Hn]; rewrite ?sett_same, ?sett_other by auto; auto; unfold wake_all.
    + pose proof (HN j) as Hj. destruct (t j); auto. destruct (cv0 =? cv); auto.
    + intros l' k0 E. congruence.
    + intros l' k0 E. rewrite E. destruct (Z.eqb_spec FULL cv); [congruence|reflexivity].
Qed.

Lemma nofull_exec : forall cap uses sp m s, exec (qcode cap uses) sp (qinit m cap) s -> forall j, nofull_t (thr s j).
Proof.
  intros cap uses sp m s H. induction H as [|b i s s' H IH Hs Hb]; [intros; exact I|].
  destruct b; [|eapply nofull_step; eauto].
  inversion Hs; subst; cbn [thr] in *; intros j; destruct (Nat.eq_dec j i) as [->|Hn]; rewrite ?sett_same, ?sett_other by auto; auto;
    pose proof (IH i) as Hi; rewrite H0 in Hi; exact Hi.
Qed.

Theorem C61_writers_never_woken : forall cap m uses s s' i v b,
  exec (qcode cap uses) false (qinit m cap) s -> thr s i = Asleep FULL MLOCK (Goto (EnqLoop v b)) ->
  exec (qcode cap uses) false s s' -> thr s' i = Asleep FULL MLOCK (Goto (EnqLoop v b)).
Proof.
  intros cap m uses s s' i v b H E H'. induction H' as [|b' j s1 s2 H' IH Hs Hb]; auto.
  destruct b'; [specialize (Hb eq_refl); discriminate|].
  assert (HN : forall j, nofull_t (thr s1 j)) by (apply nofull_exec with cap uses false m; eapply exec_trans; eauto).
  apply (nofull_step cap uses j s1 s2 HN Hs). auto.
Qed.
Print Assumptions C61_writers_never_woken.

Lemma lost_writer_run :
  tells (qcode 1 all_ops)
    (ready 3 ++ calls [(0, EnqNowait 7 true, 0); (1, Enq 8 true, 0); (2, DeqNowait true, 0)]%nat)
    (qinit (fun _ => 0) 1)
    (fun s => match owner s MLOCK with None => true | _ => false end && (mem s COUNT =? 0) && (mem s SIZE =? 1) &&
              match thr s 1%nat with Asleep 1 0 (Goto (EnqLoop 8 true)) => true | _ => false end) = true.
Proof. vm_compute. reflexivity. Qed.

(* a writer that sleeps for ever although the queue has become empty *)
Theorem C61_writer_lost_refuted : exists s, exec (qcode 1 all_ops) false (qinit (fun _ => 0) 1) s /\
  owner s MLOCK = None /\ mem s COUNT = 0 /\ mem s SIZE = 1 /\
  forall s', exec (qcode 1 all_ops) false s s' -> thr s' 1%nat = Asleep FULL MLOCK (Goto (EnqLoop 8 true)).
Proof.
  destruct (tells_exec _ false _ _ _ lost_writer_run eq_refl) as (s & H & E). exists s. split; [exact H|].
  apply andb_prop in E. destruct E as (E & E3). apply andb_prop in E. destruct E as (E & E2). apply andb_prop in E. destruct E as (E1 & E4).
  destruct (owner s MLOCK); [discriminate|]. split; [reflexivity|]. split; [apply Z.eqb_eq, E4|]. split; [apply Z.eqb_eq, E2|].
  intros s' H'. eapply C61_writers_never_woken; eauto.
  destruct (thr s 1%nat) as [|cv l c|] eqn:Et; try discriminate.
  destruct cv as [|[p|p|]|]; try discriminate. destruct l; try discriminate. destruct c as [| |lb| | | | | | | | | | | | | |]; try discriminate.
  destruct lb as [|v b| | |]; try discriminate.
  destruct v as [|[p|[p|[p|[p|p|]|]|]|]|]; try discriminate. destruct b; try discriminate. reflexivity.
Qed.
Print Assumptions C61_writer_lost_refuted.

(* two writers and two readers on a queue of two places: what a full and an empty queue tell, and
   the order of the items *)
Lemma nonvacuous_run :
  tells (qcode 2 all_ops)
    (ready 3 ++ calls [(0, EnqNowait 7 true, 0); (1, EnqNowait 8 true, 0); (0, EnqNowait 9 true, 0); (2, DeqNowait true, 0);
                       (0, Write 9, 0); (1, Read, 0); (2, Deq true, 0); (1, DeqNowait true, 0)]%nat)
    (qinit (fun _ => 0) 2)
    (fun s => match trace s with
       | [(1, ERet _ (-1) _); _; (2, ERet _ 0 9); _; (1, ERet _ 0 8); _; (0, ERet _ 0 _); _; (2, ERet _ 0 7); _;
          (0, ERet _ (-1) _); _; (1, ERet _ 0 _); _; (0, ERet _ 0 _); (0, ECall (EnqNowait 7 true))]%nat => true
       | _ => false end && Nat.eqb (length (trace s)) 16) = true.
Proof. vm_compute. reflexivity. Qed.
Example C31_nonvacuous : exists s, exec (qcode 2 all_ops) false (qinit (fun _ => 0) 2) s /\ length (trace s) = 16%nat.
Proof.
  destruct (tells_exec _ false _ _ _ nonvacuous_run eq_refl) as (s & H & E). exists s. split; [exact H|].
  apply andb_prop in E. destruct E as (_ & E). apply Nat.eqb_eq, E.
Qed.

(* a reader that sleeps is woken by the writer and gets the item *)
Lemma woken_run :
  tells (qcode 1 all_ops)
    (ready 2 ++ calls [(0, Deq true, 0); (1, EnqNowait 7 true, 0)]%nat ++ [mkact 0%nat None 0%nat false])
    (qinit (fun _ => 0) 1)
    (fun s => match trace s with [(0, ERet (Deq true) 0 7); _; _; _]%nat => true | _ => false end && (mem s COUNT =? 0)) = true.
Proof. vm_compute. reflexivity. Qed.
Example C61_nonvacuous : exists s, exec (qcode 1 all_ops) false (qinit (fun _ => 0) 1) s /\ mem s COUNT = 0.
Proof.
  destruct (tells_exec _ false _ _ _ woken_run eq_refl) as (s & H & E). exists s. split; [exact H|].
  apply andb_prop in E. destruct E as (_ & E). apply Z.eqb_eq, E.
Qed.
