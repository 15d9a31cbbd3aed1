(* Properties_Mutex.v: C33, the futex lock. *)
From Coq Require Import ZArith Lia Bool List Arith.
From Verif Require Import MThread MMutex PThread.
Import ListNotations.
Local Open Scope Z_scope.

(* the last event of thread i *)
Fixpoint last_of (tr : list (nat * mev)) (i : nat) : option mev :=
  match tr with
  | [] => None
  | (j, e) :: tr' => if Nat.eqb j i then Some e else last_of tr' i
  end.
(* thread i has the lock: mutex_lock has returned, mutex_unlock has not been called *)
Definition has_lock (s : state mlab bool mev) (i : nat) : Prop := last_of (trace s) i = Some Acquired.
(* thread i is inside of mutex_lock or mutex_unlock or has the lock *)
Definition busy (s : state mlab bool mev) (i : nat) : Prop :=
  exists e, last_of (trace s) i = Some e /\ e <> Freed.

Local Notation ts := (tstate mlab bool mev).
Definition kF : mprog := Emit Freed (Goto MClient).
Definition kU : mprog := mutex_unlock kF.
Definition X : mprog := Xchg VAL 2 (fun c => if negb (c =? 0) then Goto Wloop else critical).

(* Where a thread is: its last event, whether the lock belongs to it, whether it is going to set
   the variable to 2 or to wake a sleeper. *)
Inductive mpos : ts -> option mev -> bool -> bool -> Prop :=
| mp_client : forall e, e = None \/ e = Some Freed -> mpos (Run (Goto MClient)) e false false
| mp_pick : forall e, e = None \/ e = Some Freed -> mpos (Run (mcode MClient)) e false false
| mp_halt : forall e, e = None \/ e = Some Freed -> mpos (Run Halt) e false false
| mp_req : forall e, e = None \/ e = Some Freed -> mpos (Run (Emit Request (mutex_lock critical))) e false false
| mp_cas : mpos (Run (mutex_lock critical)) (Some Request) false false
| mp_x : mpos (Run X) (Some Request) false true
| mp_loop : mpos (Run (Goto Wloop)) (Some Request) false false
| mp_wait : mpos (Run (FWait VAL 2 X)) (Some Request) false false
| mp_asleep : mpos (FAsleep VAL X) (Some Request) false false
| mp_got : mpos (Run critical) (Some Request) true false
| mp_in : mpos (Run (Emit Release kU)) (Some Acquired) true false
| mp_unlock : mpos (Run kU) (Some Release) true false
| mp_put : mpos (Run (Put VAL 0 (FWake VAL false kF))) (Some Release) true true
| mp_wake : mpos (Run (FWake VAL false kF)) (Some Release) false true
| mp_free : mpos (Run kF) (Some Release) false false.

Definition is_owner (h : option nat) (i : nat) : bool := match h with Some j => Nat.eqb j i | None => false end.

Definition LInv (s : state mlab bool mev) (h : option nat) : Prop :=
  (forall i, exists w, mpos (thr s i) (last_of (trace s) i) (is_owner h i) w) /\
  0 <= mem s VAL <= 2 /\ (mem s VAL = 0 <-> h = None) /\
  (forall i k, thr s i = FAsleep VAL k ->
     mem s VAL = 2 \/ exists j, mpos (thr s j) (last_of (trace s) j) (is_owner h j) true).

Lemma LInv_upd : forall s s' h h' i w,
  LInv s h ->
  (forall j, j <> i -> thr s' j = thr s j) -> (forall j, j <> i -> last_of (trace s') j = last_of (trace s) j) ->
  (forall j, j <> i -> is_owner h' j = is_owner h j) ->
  mpos (thr s' i) (last_of (trace s') i) (is_owner h' i) w ->
  0 <= mem s' VAL <= 2 -> (mem s' VAL = 0 <-> h' = None) ->
  (w = true \/ mem s' VAL = 2 \/
   (~ mpos (thr s i) (last_of (trace s) i) (is_owner h i) true /\ (mem s VAL = 2 -> mem s' VAL = 2) /\
      forall k, thr s' i <> FAsleep VAL k)) ->
  LInv s' h'.
Proof.
  intros s s' h h' i w (HP & HV & HH & HS) Ht Hl Ho Hi HV' HH' Hw. split; [|split; [exact HV'|split; [exact HH'|]]].
  - intros j. destruct (Nat.eq_dec j i) as [->|Hn]; [eauto|]. rewrite Ht, Hl, Ho by auto. auto.
  - intros j k Ej. destruct Hw as [->|[Hw|(Hw & Hv & Hn)]]; [eauto|auto|].
    destruct (Nat.eq_dec j i) as [->|Hji]; [exfalso; eapply Hn; eauto|]. rewrite Ht in Ej by auto.
    destruct (HS j k Ej) as [E|(j' & Hj')]; [auto|]. right. exists j'.
    destruct (Nat.eq_dec j' i) as [->|Hj'i]; [tauto|]. rewrite Ht, Hl, Ho by auto. exact Hj'.
Qed.

Lemma last_same : forall i e tr, last_of ((i, e) :: tr) i = Some e.
Proof. intros. cbn [last_of]. rewrite Nat.eqb_refl. reflexivity. Qed.
Lemma last_other : forall i e tr j, j <> i -> last_of ((i, e) :: tr) j = last_of tr j.
Proof. intros. cbn [last_of]. destruct (Nat.eqb_spec i j); congruence. Qed.

Lemma owner_some : forall h i, is_owner h i = true -> h = Some i.
Proof. intros [j|] i H; [|discriminate]. apply Nat.eqb_eq in H. congruence. Qed.
Lemma owner_self : forall i, is_owner (Some i) i = true.
Proof. intros. apply Nat.eqb_refl. Qed.
Lemma owner_else : forall i j, j <> i -> is_owner (Some i) j = false.
Proof. intros. apply Nat.eqb_neq. auto. Qed.

Lemma setm_at : forall m x v, setm m x v x = v.
Proof. intros. unfold setm. rewrite Z.eqb_refl. reflexivity. Qed.

Lemma mpos_acq : forall t o w, mpos t (Some Acquired) o w -> o = true.
Proof. intros t o w H. inversion H; subst; auto; match goal with H : _ \/ _ |- _ => destruct H; discriminate end. Qed.

Lemma LInv_step : forall b i s s' h, LInv s h -> step mcode b i s s' -> exists h', LInv s' h'.
Proof.
  intros b i s s' h HI Hs. pose proof HI as (HP & HV & HH & HS).
  assert (Hown : is_owner h i = true -> mem s VAL <> 0).
  { intros E Ev. apply HH in Ev. subst h. discriminate. }
  assert (Hno : mem s VAL = 0 -> forall j, is_owner h j = false) by (intros Ev j; apply HH in Ev; subst h; reflexivity).
  destruct (HP i) as (w0 & Hp).
  assert (Hw0 : forall w, mpos (thr s i) (last_of (trace s) i) (is_owner h i) w -> w = w0).
  { intros w Hw. revert Hw Hp. generalize (thr s i) (last_of (trace s) i) (is_owner h i). clear.
    intros t e o H1 H2. inversion H1; subst; inversion H2; subst; reflexivity. }
  (* a step of thread i that leaves the variable, the lock and the events alone *)
  assert (Hplain : forall m o t tr c w, s = mkstate m o t tr -> mpos (Run c) (last_of tr i) (is_owner h i) w ->
    (w0 = true -> w = true) -> exists h', LInv (mkstate m o (sett t i (Run c)) tr) h').
  { intros m o t tr c w -> Hm Hw. exists h. eapply LInv_upd with (i := i) (w := w); cbn [mem thr trace] in *; eauto.
    - intros. apply sett_other; auto.
    - rewrite sett_same. exact Hm.
    - destruct w; [auto|]. right. right. split; [|split; [auto|rewrite sett_same; discriminate]].
      intros Ht. apply Hw0 in Ht. symmetry in Ht. discriminate (Hw Ht). }
  (* a step that adds an event *)
  assert (Hev : forall m o t tr e c, s = mkstate m o t tr -> mpos (Run c) (Some e) (is_owner h i) false -> w0 = false ->
    exists h', LInv (mkstate m o (sett t i (Run c)) ((i, e) :: tr)) h').
  { intros m o t tr e c -> Hm Hw. exists h. eapply LInv_upd with (i := i) (w := false); cbn [mem thr trace] in *; eauto.
    - intros. apply sett_other; auto.
    - intros. apply last_other; auto.
    - rewrite sett_same, last_same. exact Hm.
    - right. right. split; [|split; [auto|rewrite sett_same; discriminate]].
      intros Ht. apply Hw0 in Ht. congruence. }
  inversion Hs; subst; cbn [mem owner thr trace] in *; match goal with E : ?f i = _ |- _ => rename E into Ei; rewrite Ei in Hp end.
  - (* goto *) inversion Hp; subst.
    + eapply Hplain with (w := false); eauto. match goal with H : false = is_owner h i |- _ => rewrite <- H end. apply mp_pick. auto.
    + eapply Hplain with (w := false); eauto. change (mpos (Run (FWait VAL 2 X)) (last_of tr i) (is_owner h i) false).
      match goal with H : Some Request = _ |- _ => rewrite <- H end. match goal with H : false = is_owner h i |- _ => rewrite <- H end. apply mp_wait.
  - (* pick *) inversion Hp; subst. match goal with H : false = is_owner h i |- _ => rename H into Ho end.
    eapply Hplain with (w := false); eauto. rewrite <- Ho. destruct c; [apply mp_halt|apply mp_req]; auto.
  - (* emit *) inversion Hp; subst; match goal with H : _ = is_owner h i |- _ => rename H into Ho end; eapply Hev; eauto; rewrite <- Ho.
    + apply mp_cas.
    + apply mp_in.
    + apply mp_unlock.
    + apply mp_client. auto.
  - inversion Hp.
  - (* put: mutex_unlock *)
    inversion Hp; subst; match goal with H : _ = is_owner h i |- _ => rename H into Ho end. symmetry in Ho. apply owner_some in Ho. subst h.
    exists None. eapply LInv_upd with (i := i) (w := true); cbn [mem thr trace] in *; eauto.
    + intros. apply sett_other; auto.
    + intros. symmetry. apply owner_else. auto.
    + rewrite sett_same. match goal with H : Some Release = _ |- _ => rewrite <- H end. apply mp_wake.
    + rewrite setm_at. lia.
    + rewrite setm_at. tauto.
  - (* cas *)
    inversion Hp; subst; match goal with H : _ = is_owner h i |- _ => rename H into Ho end.
    match goal with H : Some Request = _ |- _ => rename H into Hl end.
    destruct (Z.eqb_spec (m VAL) 0) as [Ev|Ev].
    + exists (Some i). eapply LInv_upd with (i := i) (w := false); cbn [mem thr trace] in *; eauto.
      * intros. apply sett_other; auto.
      * intros. rewrite owner_else, Hno by auto. reflexivity.
      * rewrite sett_same, <- Hl, owner_self. apply mp_got.
      * rewrite setm_at. lia.
      * rewrite setm_at. split; [lia|discriminate].
      * right. right. split; [|split; [cbn [mem]; lia|rewrite sett_same; discriminate]].
        intros Ht. apply Hw0 in Ht. discriminate.
    + destruct (Z.eqb_spec (m VAL) 2) as [E2|E2]; cbn [negb].
      * eapply Hplain with (w := false); eauto. rewrite <- Hl, <- Ho. apply mp_loop.
      * eapply Hplain with (w := true); eauto. rewrite <- Hl, <- Ho. apply mp_x.
  - (* xchg *)
    inversion Hp; subst; match goal with H : _ = is_owner h i |- _ => rename H into Ho end.
    match goal with H : Some Request = _ |- _ => rename H into Hl end.
    destruct (Z.eqb_spec (m VAL) 0) as [Ev|Ev]; cbn [negb].
    + exists (Some i). eapply LInv_upd with (i := i) (w := false); cbn [mem thr trace] in *; eauto.
      * intros. apply sett_other; auto.
      * intros. rewrite owner_else, Hno by auto. reflexivity.
      * rewrite sett_same, <- Hl, owner_self. apply mp_got.
      * rewrite setm_at. lia.
      * rewrite setm_at. split; [lia|discriminate].
    + exists h. eapply LInv_upd with (i := i) (w := false); cbn [mem thr trace] in *; eauto.
      * intros. apply sett_other; auto.
      * rewrite sett_same, <- Hl, <- Ho. apply mp_loop.
      * rewrite setm_at. lia.
      * rewrite setm_at. split; [lia|]. intros En. apply HH in En. lia.
  - (* fetch and sub *)
    inversion Hp; subst; match goal with H : _ = is_owner h i |- _ => rename H into Ho end.
    match goal with H : Some Release = _ |- _ => rename H into Hl end. symmetry in Ho. pose proof (Hown Ho) as Hv. apply owner_some in Ho. subst h.
    destruct (Z.eqb_spec (m VAL) 1) as [Ev|Ev]; cbn [negb].
    + exists None. eapply LInv_upd with (i := i) (w := false); cbn [mem thr trace] in *; eauto.
      * intros. apply sett_other; auto.
      * intros. symmetry. apply owner_else. auto.
      * rewrite sett_same, <- Hl. apply mp_free.
      * rewrite setm_at. lia.
      * rewrite setm_at. split; [reflexivity|lia].
      * right. right. split; [|split; [cbn [mem]; lia|rewrite sett_same; discriminate]].
        intros Ht. apply Hw0 in Ht. discriminate.
    + exists (Some i). eapply LInv_upd with (i := i) (w := true); cbn [mem thr trace] in *; eauto.
      * intros. apply sett_other; auto.
      * rewrite sett_same, <- Hl, owner_self. apply mp_put.
      * rewrite setm_at. lia.
      * rewrite setm_at. split; [lia|discriminate].
  - (* futex_wait *)
    inversion Hp; subst; match goal with H : _ = is_owner h i |- _ => rename H into Ho end.
    match goal with H : Some Request = _ |- _ => rename H into Hl end.
    destruct (Z.eqb_spec (m VAL) 2) as [Ev|Ev].
    + exists h. eapply LInv_upd with (i := i) (w := false); cbn [mem thr trace] in *; eauto.
      * intros. apply sett_other; auto.
      * rewrite sett_same, <- Hl, <- Ho. apply mp_asleep.
    + eapply Hplain with (w := true); eauto. rewrite <- Hl, <- Ho. apply mp_x.
  - (* futex_wake *)
    inversion Hp; subst; match goal with H : _ = is_owner h i |- _ => rename H into Ho end.
    match goal with H : Some Release = _ |- _ => rename H into Hl end.
    match goal with E : t j = _ |- _ => rename E into Ej end. destruct (HP j) as (wj & Hj). rewrite Ej in Hj. inversion Hj; subst.
    match goal with H : Some Request = last_of tr j |- _ => rename H into Hlj end. match goal with H : false = is_owner h j |- _ => rename H into Hoj end.
    assert (Hij : j <> i) by congruence.
    assert (HI1 : LInv (mkstate m o (sett t j (Run X)) tr) h).
    { eapply LInv_upd with (i := j) (w := true); cbn [mem thr trace] in *; eauto.
      - intros. apply sett_other; auto.
      - rewrite sett_same, <- Hlj, <- Hoj. apply mp_x. }
    exists h. destruct HI1 as (HP1 & HV1 & HH1 & HS1). cbn [mem thr trace] in *. split; [|split; [exact HV|split; [exact HH|]]]; cbn [mem thr trace].
    + intros j'. destruct (Nat.eq_dec j' j) as [->|Hn]; [rewrite sett_same; exists true; rewrite <- Hlj, <- Hoj; apply mp_x|].
      rewrite sett_other by auto. destruct (Nat.eq_dec j' i) as [->|Hn']; [rewrite sett_same; exists false; rewrite <- Hl, <- Ho; apply mp_free|].
      rewrite sett_other by auto. auto.
    + intros j' k' Ej'. right. exists j. rewrite sett_same, <- Hlj, <- Hoj. apply mp_x.
  - (* futex_wake, nobody sleeps *)
    inversion Hp; subst; match goal with H : _ = is_owner h i |- _ => rename H into Ho end.
    match goal with H : Some Release = _ |- _ => rename H into Hl end.
    exists h. split; [|split; [exact HV|split; [exact HH|]]]; cbn [mem thr trace].
    + intros j'. destruct (Nat.eq_dec j' i) as [->|Hn']; [rewrite sett_same; exists false; rewrite <- Hl, <- Ho; apply mp_free|].
      rewrite sett_other by auto. auto.
    + intros j' k' Ej'. exfalso. destruct (Nat.eq_dec j' i) as [->|Hn']; [rewrite sett_same in Ej'; discriminate|].
      rewrite sett_other in Ej' by auto. match goal with H : forall j k', t j <> _ |- _ => eapply H; exact Ej' end.
  - inversion Hp.
  - inversion Hp.
  - inversion Hp.
  - inversion Hp.
  - inversion Hp.
  - inversion Hp.
  - inversion Hp.
  - inversion Hp.
  - (* spurious *)
    inversion Hp; subst; match goal with H : _ = is_owner h i |- _ => rename H into Ho end.
    match goal with H : Some Request = _ |- _ => rename H into Hl end.
    eapply Hplain with (w := true); eauto. rewrite <- Hl, <- Ho. apply mp_x.
Qed.

Lemma LInv_exec : forall sp m s, exec mcode sp (minit m) s -> exists h, LInv s h.
Proof.
  intros sp m s H. induction H as [|b i s s' H (h & HI) Hs Hb].
  - exists None. unfold LInv. cbn [thr mem trace minit last_of is_owner]. rewrite setm_at. repeat split; try lia; auto; try discriminate.
    intros i. exists false. apply mp_client. auto.
  - eapply LInv_step; eauto.
Qed.

(* C33: under every interleaving of any number of threads, with spurious wake-ups or without: at
   most one thread has the lock *)
Theorem C33_mutual_exclusion : forall sp m s i j, exec mcode sp (minit m) s ->
  has_lock s i -> has_lock s j -> i = j.
Proof.
  intros sp m s i j H Hi Hj. destruct (LInv_exec sp m s H) as (h & HP & _). unfold has_lock in *.
  destruct (HP i) as (w & Hp). destruct (HP j) as (w' & Hp'). rewrite Hi in Hp. rewrite Hj in Hp'.
  assert (E : is_owner h i = true) by (eapply mpos_acq; eauto).
  assert (E' : is_owner h j = true) by (eapply mpos_acq; eauto).
  apply owner_some in E, E'. congruence.
Qed.
Print Assumptions C33_mutual_exclusion.

(* the decrement of mutex_unlock, which is the release, is done on a held lock: the variable is 1
   or 2, and nobody else has the lock *)
Theorem C33_release_held : forall sp m s i k, exec mcode sp (minit m) s -> thr s i = Run (Fadd VAL (-1) k) ->
  1 <= mem s VAL <= 2 /\ forall j, ~ has_lock s j.
Proof.
  intros sp m s i k H E. destruct (LInv_exec sp m s H) as (h & HP & HV & HH & HS). destruct (HP i) as (w & Hp). rewrite E in Hp.
  inversion Hp; subst. match goal with H : true = is_owner h i |- _ => symmetry in H; apply owner_some in H; subst h end.
  split.
  - destruct (Z.eq_dec (mem s VAL) 0) as [Ev|]; [|lia]. apply HH in Ev. discriminate.
  - intros j Hj. unfold has_lock in Hj. destruct (HP j) as (w' & Hp'). rewrite Hj in Hp'.
    assert (E' : is_owner (Some i) j = true) by (eapply mpos_acq; eauto).
    apply owner_some in E'. injection E' as ->. congruence.
Qed.
Print Assumptions C33_release_held.

(* No wake-up is lost: when a thread sleeps for the lock, then some other thread that is not asleep
   is inside of mutex_lock or mutex_unlock or has the lock, and can go on.  So nobody sleeps when
   all others are outside. *)
Theorem C33_no_lost_wakeup : forall sp m s i k, exec mcode sp (minit m) s -> thr s i = FAsleep VAL k ->
  exists j s', busy s j /\ step mcode false j s s'.
Proof.
  intros sp m s i k H E. destruct (LInv_exec sp m s H) as (h & HP & HV & HH & HS).
  assert (A : exists j w, mpos (thr s j) (last_of (trace s) j) (is_owner h j) w /\ (is_owner h j = true \/ w = true)).
  { destruct (HS i k E) as [Ev|(j & Hj)]; [|exists j, true; auto]. destruct h as [j|].
    - destruct (HP j) as (w & Hw). exists j, w. rewrite owner_self in *. auto.
    - exfalso. assert (mem s VAL = 0) by (apply HH; reflexivity). lia. }
  destruct A as (j & w & Hj & Hw). destruct s as [m' o t tr]. cbn [thr trace] in *.
  exists j. unfold busy. cbn [trace]. inversion Hj; subst;
    try (match goal with H : false = is_owner h j |- _ => rewrite <- H in Hw end; destruct Hw; discriminate);
    match goal with E : _ = t j |- _ => symmetry in E end.
  - eexists. split; [eexists; split; [reflexivity|discriminate]|]. eapply s_xchg; eauto.
  - eexists. split; [eexists; split; [reflexivity|discriminate]|]. eapply s_emit; eauto.
  - eexists. split; [eexists; split; [reflexivity|discriminate]|]. eapply s_emit; eauto.
  - eexists. split; [eexists; split; [reflexivity|discriminate]|]. eapply s_fadd; eauto.
  - eexists. split; [eexists; split; [reflexivity|discriminate]|]. eapply s_put; eauto.
  - eexists. split; [eexists; split; [reflexivity|discriminate]|]. eapply s_fwake1; eauto.
Qed.
Print Assumptions C33_no_lost_wakeup.

(* a release with sleepers wakes one of them: if all other threads are outside or asleep, then the
   release goes on to futex_wake *)
Theorem C33_contended_release_wakes : forall sp m s i k s', exec mcode sp (minit m) s ->
  thr s i = Run (Fadd VAL (-1) k) -> (exists j kj, thr s j = FAsleep VAL kj) ->
  (forall j, busy s j -> j = i \/ exists kj, thr s j = FAsleep VAL kj) ->
  step mcode false i s s' -> exists k', thr s' i = Run (Put VAL 0 (FWake VAL false k')).
Proof.
  intros sp m s i k s' H E (j & kj & Ej) Hall Hs. destruct (LInv_exec sp m s H) as (h & HP & HV & HH & HS).
  assert (E2 : mem s VAL = 2).
  { destruct (HS j kj Ej) as [Ev|(j' & Hj')]; [exact Ev|]. exfalso.
    assert (B : busy s j').
    { unfold busy. inversion Hj'; subst; eexists; split; try reflexivity; try (symmetry; eassumption); discriminate. }
    destruct (Hall j' B) as [->|(kj' & Ej')].
    - rewrite E in Hj'. inversion Hj'.
    - rewrite Ej' in Hj'. inversion Hj'. }
  destruct (HP i) as (w & Hp). rewrite E in Hp. inversion Hp; subst.
  inversion Hs; subst; cbn [thr mem] in *; rewrite E in *; try discriminate.
  match goal with H : Run _ = Run _ |- _ => injection H as <- <- <- end. rewrite sett_same, E2. cbn. eauto.
Qed.
Print Assumptions C33_contended_release_wakes.

(* three threads, one sleeps and is woken by the release *)
Lemma lock_run :
  leads mcode (go 1 0 ++ pick 0 false ++ go 3 0 ++ go 1 1 ++ pick 1 false ++ go 5 1)
    (minit (fun _ => 0))
    (fun s => match thr s 1%nat with FAsleep 0 _ => true | _ => false end &&
              match last_of (trace s) 0 with Some Acquired => true | _ => false end && (mem s VAL =? 2)) = true.
Proof. vm_compute. reflexivity. Qed.
Example C33_nonvacuous : exists s, exec mcode false (minit (fun _ => 0)) s /\ has_lock s 0 /\ exists k, thr s 1%nat = FAsleep VAL k.
Proof.
  destruct (leads_exec _ false _ _ _ lock_run eq_refl) as (s & H & E). exists s. split; [exact H|].
  apply andb_prop in E. destruct E as (E & _). apply andb_prop in E. destruct E as (E1 & E2). unfold has_lock. split.
  - destruct (last_of (trace s) 0) as [[]|]; try discriminate. reflexivity.
  - destruct (thr s 1%nat) as [| |x k]; try discriminate. destruct x; try discriminate. exists k. reflexivity.
Qed.
